(** Panic monad and bounded loops: the semantics of the Rust fragment the models are written in.

    [Ret a] is a normal return, [Panic] is a Rust panic (failed assertion, index out of bounds,
    [usize] underflow with overflow checks, [usize] division by zero, explicit [panic!]).
    These are conventions of the model, not a translation of a particular source line. *)
From Coq Require Import Arith Lia List Bool.

Inductive outcome (A : Type) : Type :=
| Ret (a : A)
| Panic.
Arguments Ret {A} a.
Arguments Panic {A}.

Definition bind {A B} (x : outcome A) (f : A -> outcome B) : outcome B :=
  match x with Ret a => f a | Panic => Panic end.

Notation "'let!' x ':=' e1 'in' e2" := (bind e1 (fun x => e2))
  (at level 200, x name, e1 at level 100, e2 at level 200, right associativity,
   format "'[hv' 'let!'  x  ':='  e1  'in'  '//' e2 ']'").
Notation "'let!' ' p ':=' e1 'in' e2" := (bind e1 (fun p => e2))
  (at level 200, p pattern, e1 at level 100, e2 at level 200, right associativity).

(** Rust [assert!(b)]. *)
Definition rassert (b : bool) : outcome unit := if b then Ret tt else Panic.

(** [usize] subtraction with overflow checks. *)
Definition usub (a b : nat) : outcome nat := if b <=? a then Ret (a - b) else Panic.

(** [usize] division and remainder: division by zero panics. *)
Definition udiv (a b : nat) : outcome nat := if b =? 0 then Panic else Ret (a / b).
Definition umod (a b : nat) : outcome nat := if b =? 0 then Panic else Ret (a mod b).

(** [Vec] indexing: out of bounds panics. *)
Definition vget {A} (l : list A) (k : nat) : outcome A :=
  match nth_error l k with Some x => Ret x | None => Panic end.

Fixpoint list_upd {A} (l : list A) (k : nat) (v : A) : list A :=
  match l, k with
  | nil, _ => nil
  | cons _ t, O => cons v t
  | cons h t, S k' => cons h (list_upd t k' v)
  end.

Definition vset {A} (l : list A) (k : nat) (v : A) : outcome (list A) :=
  if k <? length l then Ret (list_upd l k v) else Panic.

(** [for i in lo..hi { body }] over the mutable state [s]; empty if [hi <= lo]. *)
Fixpoint for_from {St} (k lo : nat) (body : nat -> St -> outcome St) (s : St) : outcome St :=
  match k with
  | O => Ret s
  | S k' => let! s' := body lo s in for_from k' (S lo) body s'
  end.
Definition for_loop {St} (lo hi : nat) (body : nat -> St -> outcome St) (s : St) : outcome St :=
  for_from (hi - lo) lo body s.

(** [for i in (lo..hi).rev() { body }]. *)
Fixpoint for_down {St} (k lo : nat) (body : nat -> St -> outcome St) (s : St) : outcome St :=
  match k with
  | O => Ret s
  | S k' => let! s' := body (lo + k') s in for_down k' lo body s'
  end.
Definition for_loop_rev {St} (lo hi : nat) (body : nat -> St -> outcome St) (s : St) : outcome St :=
  for_down (hi - lo) lo body s.

(** ** Rules *)

Lemma bind_ret {A B} (x : outcome A) (f : A -> outcome B) b :
  bind x f = Ret b -> exists a, x = Ret a /\ f a = Ret b.
Proof. destruct x; simpl; [eauto | discriminate]. Qed.

Lemma rassert_true b : b = true -> rassert b = Ret tt.
Proof. intros ->; reflexivity. Qed.
Lemma rassert_false b : b = false -> rassert b = Panic.
Proof. intros ->; reflexivity. Qed.
Lemma rassert_ret b u : rassert b = Ret u -> b = true.
Proof. destruct b; [reflexivity | discriminate]. Qed.

Lemma usub_ok a b : b <= a -> usub a b = Ret (a - b).
Proof. intros. unfold usub. apply Nat.leb_le in H. rewrite H; reflexivity. Qed.

Lemma for_from_ind {St} (P : nat -> St -> Prop) body k :
  forall lo s,
  P lo s ->
  (forall i s, lo <= i < lo + k -> P i s -> exists s', body i s = Ret s' /\ P (S i) s') ->
  exists s', for_from k lo body s = Ret s' /\ P (lo + k) s'.
Proof.
  induction k as [|k IH]; intros lo s HP Hb; simpl.
  - exists s. rewrite Nat.add_0_r. auto.
  - destruct (Hb lo s) as (s1 & E1 & P1); [lia | assumption |].
    rewrite E1; simpl.
    destruct (IH (S lo) s1 P1) as (s2 & E2 & P2).
    + intros i s' Hi. apply Hb. lia.
    + exists s2. split; [assumption|]. replace (lo + S k) with (S lo + k) by lia. assumption.
Qed.

(** Total-correctness rule for [for_loop]. *)
Lemma for_loop_ind {St} (P : nat -> St -> Prop) body lo hi s :
  lo <= hi ->
  P lo s ->
  (forall i s, lo <= i < hi -> P i s -> exists s', body i s = Ret s' /\ P (S i) s') ->
  exists s', for_loop lo hi body s = Ret s' /\ P hi s'.
Proof.
  intros Hle HP Hb. unfold for_loop.
  destruct (for_from_ind P body (hi - lo) lo s HP) as (s' & E & H).
  - intros i s0 Hi. apply Hb. lia.
  - exists s'. split; [assumption|]. replace (lo + (hi - lo)) with hi in H by lia. assumption.
Qed.

Lemma for_down_ind {St} (P : nat -> St -> Prop) body k :
  forall lo s,
  P (lo + k) s ->
  (forall i s, lo <= i < lo + k -> P (S i) s -> exists s', body i s = Ret s' /\ P i s') ->
  exists s', for_down k lo body s = Ret s' /\ P lo s'.
Proof.
  induction k as [|k IH]; intros lo s HP Hb; simpl.
  - exists s. rewrite Nat.add_0_r in HP. auto.
  - destruct (Hb (lo + k) s) as (s1 & E1 & P1); [lia | |].
    { replace (S (lo + k)) with (lo + S k) by lia. assumption. }
    rewrite E1; simpl. apply IH; [assumption|].
    intros i s' Hi. apply Hb. lia.
Qed.

(** Total-correctness rule for [for_loop_rev]; the invariant is indexed by the elements still
    to be visited. *)
Lemma for_loop_rev_ind {St} (P : nat -> St -> Prop) body lo hi s :
  lo <= hi ->
  P hi s ->
  (forall i s, lo <= i < hi -> P (S i) s -> exists s', body i s = Ret s' /\ P i s') ->
  exists s', for_loop_rev lo hi body s = Ret s' /\ P lo s'.
Proof.
  intros Hle HP Hb. unfold for_loop_rev. apply for_down_ind.
  - replace (lo + (hi - lo)) with hi by lia. assumption.
  - intros i s0 Hi. apply Hb. lia.
Qed.

Lemma for_from_inv {St} (P : nat -> St -> Prop) body k :
  forall lo s s',
  for_from k lo body s = Ret s' ->
  P lo s ->
  (forall i s s', lo <= i < lo + k -> P i s -> body i s = Ret s' -> P (S i) s') ->
  P (lo + k) s'.
Proof.
  induction k as [|k IH]; intros lo s s' E HP Hb; simpl in E.
  - injection E as <-. rewrite Nat.add_0_r. assumption.
  - apply bind_ret in E. destruct E as (s1 & E1 & E2).
    replace (lo + S k) with (S lo + k) by lia.
    eapply IH; [exact E2 | eapply Hb; eauto; lia |].
    intros i a b Hi. apply Hb. lia.
Qed.

(** Partial-correctness rule. *)
Lemma for_loop_inv {St} (P : nat -> St -> Prop) body lo hi s s' :
  for_loop lo hi body s = Ret s' ->
  lo <= hi ->
  P lo s ->
  (forall i s s', lo <= i < hi -> P i s -> body i s = Ret s' -> P (S i) s') ->
  P hi s'.
Proof.
  intros E Hle HP Hb. unfold for_loop in E.
  replace hi with (lo + (hi - lo)) by lia.
  eapply for_from_inv; [exact E | assumption |].
  intros i a b Hi. apply Hb. lia.
Qed.

Lemma for_loop_nil {St} lo hi (body : nat -> St -> outcome St) s :
  hi <= lo -> for_loop lo hi body s = Ret s.
Proof. intros. unfold for_loop. replace (hi - lo) with 0 by lia. reflexivity. Qed.

Lemma for_loop_step {St} lo hi (body : nat -> St -> outcome St) s :
  lo < hi -> for_loop lo hi body s = let! s' := body lo s in for_loop (S lo) hi body s'.
Proof.
  intros. unfold for_loop. replace (hi - lo) with (S (hi - S lo)) by lia. reflexivity.
Qed.

Lemma for_loop_rev_nil {St} lo hi (body : nat -> St -> outcome St) s :
  hi <= lo -> for_loop_rev lo hi body s = Ret s.
Proof. intros. unfold for_loop_rev. replace (hi - lo) with 0 by lia. reflexivity. Qed.

Lemma for_from_ext {St} (b1 b2 : nat -> St -> outcome St) k : forall lo s,
  (forall i s, lo <= i < lo + k -> b1 i s = b2 i s) ->
  for_from k lo b1 s = for_from k lo b2 s.
Proof.
  induction k as [|k IH]; intros lo s H; simpl; [reflexivity|].
  rewrite H by lia. destruct (b2 lo s); simpl; [|reflexivity].
  apply IH. intros. apply H. lia.
Qed.

Lemma for_loop_ext {St} (b1 b2 : nat -> St -> outcome St) lo hi s :
  (forall i s, lo <= i < hi -> b1 i s = b2 i s) ->
  for_loop lo hi b1 s = for_loop lo hi b2 s.
Proof.
  intros. unfold for_loop. destruct (Nat.le_gt_cases hi lo).
  - replace (hi - lo) with 0 by lia. reflexivity.
  - apply for_from_ext. intros. apply H. lia.
Qed.

(** ** Lists *)

Lemma length_list_upd {A} (l : list A) k v : length (list_upd l k v) = length l.
Proof. revert k; induction l; intros [|k]; simpl; auto. Qed.

Lemma nth_error_list_upd {A} (l : list A) k v i :
  nth_error (list_upd l k v) i =
  if (i =? k) then (if i <? length l then Some v else None) else nth_error l i.
Proof.
  revert k i; induction l as [|h t IH]; intros [|k] [|i]; simpl; auto.
  - destruct (i =? k); reflexivity.
  - rewrite IH. destruct (i =? k); [|reflexivity].
    replace (S i <? S (length t)) with (i <? length t); reflexivity.
Qed.

Lemma vget_ok {A} (l : list A) k d : k < length l -> vget l k = Ret (nth k l d).
Proof.
  intros. unfold vget. destruct (nth_error l k) eqn:E.
  - apply nth_error_nth with (d := d) in E. congruence.
  - apply nth_error_None in E. lia.
Qed.

Lemma vget_panic {A} (l : list A) k : length l <= k -> vget l k = Panic.
Proof. intros. unfold vget. apply nth_error_None in H. rewrite H. reflexivity. Qed.

Lemma vget_lt {A} (l : list A) k x : vget l k = Ret x -> k < length l.
Proof.
  unfold vget. destruct (nth_error l k) eqn:E; [|discriminate].
  intros _. apply nth_error_Some. congruence.
Qed.

Lemma vset_ok {A} (l : list A) k v : k < length l -> vset l k v = Ret (list_upd l k v).
Proof. intros. unfold vset. apply Nat.ltb_lt in H. rewrite H. reflexivity. Qed.

Lemma vget_list_upd {A} (l : list A) k v i :
  k < length l -> vget (list_upd l k v) i = if i =? k then Ret v else vget l i.
Proof.
  intros. unfold vget. rewrite nth_error_list_upd. destruct (i =? k) eqn:E.
  - apply Nat.eqb_eq in E; subst. apply Nat.ltb_lt in H. rewrite H. reflexivity.
  - reflexivity.
Qed.

Lemma list_ext_vget {A} (l l' : list A) :
  length l = length l' -> (forall i, i < length l -> vget l i = vget l' i) -> l = l'.
Proof.
  revert l'; induction l as [|h t IH]; intros [|h' t'] Hl H; simpl in *; try lia; auto.
  f_equal.
  - specialize (H 0 ltac:(lia)). unfold vget in H; simpl in H. congruence.
  - apply IH; [lia|]. intros i Hi. specialize (H (S i) ltac:(lia)). exact H.
Qed.
