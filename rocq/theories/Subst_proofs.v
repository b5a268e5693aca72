(** Proofs about triangular substitution, solving and inversion. *)
From Coq Require Import Arith List Bool Lia Ring FinFun.
From Verif Require Import Outcome Scalar Matrix_model Transpose_model Vector_model LU_model Matrix_spec LU_spec
  Matrix_proofs Transpose_proofs Vector_proofs Sums MatProps_proofs LU_proofs.
Import ListNotations.
Local Open Scope nat_scope.

Section NoLaws.
Context {T : Type} {O : Ops T}.

(** b - f 0 - f 1 - ... - f (k-1), from the left. *)
Fixpoint subn (b : T) (k : nat) (f : nat -> T) : T :=
  match k with 0 => b | S k' => sub (subn b k' f) (f k') end.

Lemma subn_ext b k f g : (forall l, l < k -> f l = g l) -> subn b k f = subn b k g.
Proof. induction k; intros H; simpl; [reflexivity|]. rewrite IHk by auto. rewrite H by auto. reflexivity. Qed.

(** The exact result of the loops, for every element type. *)
Definition fwd_sol (n : nat) (L : nat -> nat -> T) (b x : nat -> T) : Prop :=
  forall k, k < n -> x k = div (subn (b k) k (fun l => mul (L k l) (x l))) (L k k).
Definition bwd_sum (n : nat) (U : nat -> nat -> T) (b x : nat -> T) (k : nat) : T :=
  subn (b k) (n - S k) (fun t => mul (U k (n - S t)) (x (n - S t))).
Definition bwd_sol (n : nat) (U : nat -> nat -> T) (b x : nat -> T) : Prop :=
  forall k, k < n -> x k = if negb (eqb (U k k) zero) then div (bwd_sum n U b x k) (U k k) else one.

Lemma subst_forward_vec_spec M n L v b : is_mat M n n L -> is_col v n b ->
  exists w x, subst_forward_vec M v = Ret w /\ is_col w n x /\ fwd_sol n L b x.
Proof.
  intros HM Hv. unfold subst_forward_vec. rewrite (is_mat_cols _ _ _ _ HM).
  match goal with |- context [for_loop 0 n ?body _] => set (bd := body) end.
  destruct (for_loop_ind (fun k w => exists x, is_col w n x /\ fwd_sol k L b x /\ forall r, k <= r -> r < n -> x r = b r)
    bd 0 n v) as (w & E & x & H1 & H2 & _).
  - lia.
  - exists b. split; [assumption|]. split; [intros k Hk; lia | auto].
  - intros k w Hk (x & H1 & H2 & H3). unfold bd.
    match goal with |- context [for_loop 0 k ?body _] => set (bd2 := body) end.
    destruct (for_loop_ind (fun j w => is_col w n (upd1 x k (subn (b k) j (fun l => mul (L k l) (x l)))))
      bd2 0 k w) as (w1 & E1 & Hw1).
    + lia.
    + simpl. eapply col_ext; [|exact H1]. intros i Hi. unfold upd1. destruct (Nat.eqb_spec i k); [subst; apply H3; lia|reflexivity].
    + intros j w1 Hj Hw1. unfold bd2.
      rewrite (col_get _ _ _ k Hw1) by lia. rewrite (is_mat_get _ _ _ _ k j HM) by lia.
      rewrite (col_get _ _ _ j Hw1) by lia. cbn [bind].
      match goal with |- context [vvset w1 k ?e] => destruct (col_set w1 n _ k e Hw1) as (w2 & E2 & Hw2); [lia|] end.
      exists w2. split; [exact E2|]. eapply col_ext; [|exact Hw2].
      intros i Hi. unfold upd1. rewrite Nat.eqb_refl.
      destruct (Nat.eqb_spec i k); [|reflexivity]. destruct (Nat.eqb_spec j k); [lia|]. reflexivity.
    + rewrite E1. cbn [bind]. rewrite (col_get _ _ _ k Hw1) by lia. cbn [bind].
      rewrite (is_mat_get _ _ _ _ k k HM) by lia. cbn [bind].
      match goal with |- context [vvset w1 k ?e] => destruct (col_set w1 n _ k e Hw1) as (w2 & E2 & Hw2); [lia|] end.
      exists w2. split; [exact E2|].
      set (v0 := subn (b k) k (fun l => mul (L k l) (x l))) in *.
      exists (upd1 x k (div v0 (L k k))).
      split; [|split].
      * eapply col_ext; [|exact Hw2]. intros i Hi. unfold upd1. rewrite Nat.eqb_refl. destruct (i =? k); reflexivity.
      * intros r Hr. unfold upd1 at 1. destruct (Nat.eqb_spec r k).
        -- subst r. unfold v0. f_equal. apply subn_ext. intros l Hl. unfold upd1.
           destruct (Nat.eqb_spec l k); [lia|reflexivity].
        -- rewrite (H2 r) by lia. f_equal. apply subn_ext. intros l Hl. unfold upd1.
           destruct (Nat.eqb_spec l k); [lia|reflexivity].
      * intros r Hr Hr'. unfold upd1. destruct (Nat.eqb_spec r k); [lia|]. apply H3; lia.
  - exists w, x. auto.
Qed.

Lemma subst_backward_vec_spec M n U v b : is_mat M n n U -> is_col v n b ->
  exists w x, subst_backward_vec M v = Ret w /\ is_col w n x /\ bwd_sol n U b x.
Proof.
  intros HM Hv. unfold subst_backward_vec. rewrite (is_mat_cols _ _ _ _ HM).
  match goal with |- context [for_loop_rev 0 n ?body _] => set (bd := body) end.
  destruct (for_loop_rev_ind (fun k w => exists x, is_col w n x /\
      (forall r, k <= r < n -> x r = if negb (eqb (U r r) zero) then div (bwd_sum n U b x r) (U r r) else one) /\
      (forall r, r < k -> x r = b r)) bd 0 n v) as (w & E & x & H1 & H2 & _).
  - lia.
  - exists b. split; [assumption|]. split; [intros k Hk; lia | auto].
  - intros k w Hk (x & H1 & H2 & H3). unfold bd.
    match goal with |- context [for_loop_rev (k+1) n ?body _] => set (bd2 := body) end.
    destruct (for_loop_rev_ind (fun j w => is_col w n (upd1 x k (subn (b k) (n - j) (fun t => mul (U k (n - S t)) (x (n - S t))))))
      bd2 (k+1) n w) as (w1 & E1 & Hw1).
    + lia.
    + rewrite Nat.sub_diag. simpl. eapply col_ext; [|exact H1]. intros i Hi. unfold upd1.
      destruct (Nat.eqb_spec i k); [subst; apply H3; lia|reflexivity].
    + intros j w1 Hj Hw1. unfold bd2.
      rewrite (col_get _ _ _ k Hw1) by lia. rewrite (is_mat_get _ _ _ _ k j HM) by lia.
      rewrite (col_get _ _ _ j Hw1) by lia. cbn [bind].
      match goal with |- context [vvset w1 k ?e] => destruct (col_set w1 n _ k e Hw1) as (w2 & E2 & Hw2); [lia|] end.
      exists w2. split; [exact E2|]. eapply col_ext; [|exact Hw2].
      intros i Hi. unfold upd1. rewrite Nat.eqb_refl.
      destruct (Nat.eqb_spec i k); [|reflexivity]. destruct (Nat.eqb_spec j k); [lia|].
      replace (n - j) with (S (n - S j)) by lia. cbn [subn].
      replace (n - S (n - S j)) with j by lia. reflexivity.
    + rewrite E1. cbn [bind]. rewrite (is_mat_get _ _ _ _ k k HM) by lia. cbn [bind].
      set (v0 := subn (b k) (n - (k + 1)) (fun t => mul (U k (n - S t)) (x (n - S t)))) in *.
      set (nv := if negb (eqb (U k k) zero) then div v0 (U k k) else one).
      destruct (col_set w1 n _ k nv Hw1) as (w2 & E2 & Hw2); [lia|].
      exists w2. split.
      { unfold nv in E2. destruct (negb (eqb (U k k) zero)); [|exact E2].
        rewrite (col_get _ _ _ k Hw1) by lia. cbn [bind].
        unfold upd1. rewrite Nat.eqb_refl. exact E2. }
      exists (upd1 x k nv).
      split; [|split].
      * eapply col_ext; [|exact Hw2]. intros i Hi. unfold upd1. destruct (i =? k); reflexivity.
      * intros r Hr.
        assert (Ex : bwd_sum n U b (upd1 x k nv) r = bwd_sum n U b x r).
        { unfold bwd_sum. apply subn_ext. intros l Hl. unfold upd1.
          destruct (Nat.eqb_spec (n - S l) k); [lia|reflexivity]. }
        rewrite Ex. unfold upd1. destruct (Nat.eqb_spec r k).
        -- subst r. unfold nv, v0, bwd_sum. replace (n - (k + 1)) with (n - S k) by lia. reflexivity.
        -- apply H2. lia.
      * intros r Hr. unfold upd1. destruct (Nat.eqb_spec r k); [lia|]. apply H3; lia.
  - exists w, x. split; [exact E|]. split; [exact H1|]. intros k Hk. apply H2. lia.
Qed.

(** ** Matrix right-hand sides *)

Definition rupd (g : nat -> nat -> T) (k : nat) (r : nat -> T) : nat -> nat -> T :=
  fun a c => if a =? k then r c else g a c.

Lemma row_axpy_spec b n p g k l y : is_mat b n p g -> k < n -> l < n ->
  exists b', row_axpy b k l y = Ret b' /\ is_mat b' n p (rupd g k (fun c => sub (g k c) (mul (g l c) y))).
Proof.
  intros H Hk Hl. unfold row_axpy.
  destruct (mget_row_spec b n p g k H Hk) as (rk & E1 & H1). rewrite E1. cbn [bind].
  destruct (mget_row_spec b n p g l H Hl) as (rl & E2 & H2). rewrite E2. cbn [bind].
  pose proof (mapply_spec (fun x => mul x y) rl 1 p _ H2) as H3.
  destruct (msub_spec rk (mmul_scalar rl y) 1 p _ _ H1 H3) as (r & E3 & H4).
  unfold vsub, vmul_scalar. rewrite E3. cbn [bind].
  apply (mset_row_spec b n p g r _ k H H4 Hk).
Qed.

Lemma row_div_spec b n p g k d : is_mat b n p g -> k < n ->
  exists b', row_div b k d = Ret b' /\ is_mat b' n p (rupd g k (fun c => mul (g k c) (div one d))).
Proof.
  intros H Hk. unfold row_div.
  destruct (mget_row_spec b n p g k H Hk) as (rk & E1 & H1). rewrite E1. cbn [bind].
  pose proof (mapply_spec (fun x => mul x (div one d)) rk 1 p _ H1) as H3.
  apply (mset_row_spec b n p g _ (fun c => mul (g k c) (div one d)) k H H3 Hk).
Qed.

Definition fwdm_sol (n p : nat) (L : nat -> nat -> T) (b x : nat -> nat -> T) : Prop :=
  forall k c, k < n -> c < p ->
    x k c = mul (subn (b k c) k (fun l => mul (x l c) (L k l))) (div one (L k k)).
Definition bwdm_sum (n : nat) (U : nat -> nat -> T) (b x : nat -> nat -> T) (k c : nat) : T :=
  subn (b k c) (n - S k) (fun t => mul (x (n - S t) c) (U k (n - S t))).
Definition bwdm_sol (n p : nat) (U : nat -> nat -> T) (b x : nat -> nat -> T) : Prop :=
  forall k c, k < n -> c < p -> x k c = mul (bwdm_sum n U b x k c) (div one (U k k)).

Lemma subst_forward_mat_spec M n L B p b : is_mat M n n L -> is_mat B n p b ->
  exists X x, subst_forward_mat M B = Ret X /\ is_mat X n p x /\ fwdm_sol n p L b x.
Proof.
  intros HM HB. unfold subst_forward_mat. destruct (is_mat_dim _ _ _ _ HM) as [-> ->]. rewrite Nat.min_id.
  match goal with |- context [for_loop 0 n ?body _] => set (bd := body) end.
  destruct (for_loop_ind (fun k w => exists x, is_mat w n p x /\ fwdm_sol k p L b x /\ forall r c, k <= r -> r < n -> x r c = b r c)
    bd 0 n B) as (w & E & x & H1 & H2 & _).
  - lia.
  - exists b. split; [assumption|]. split; [intros k c Hk; lia | auto].
  - intros k w Hk (x & H1 & H2 & H3). unfold bd.
    match goal with |- context [for_loop 0 k ?body _] => set (bd2 := body) end.
    destruct (for_loop_ind (fun j w => is_mat w n p (rupd x k (fun c => subn (b k c) j (fun l => mul (x l c) (L k l)))))
      bd2 0 k w) as (w1 & E1 & Hw1).
    + lia.
    + simpl. eapply is_mat_ext; [|exact H1]. intros i c Hi Hc. unfold rupd.
      destruct (Nat.eqb_spec i k); [subst; apply H3; lia|reflexivity].
    + intros j w1 Hj Hw1. unfold bd2. rewrite (is_mat_get _ _ _ _ k j HM) by lia. cbn [bind].
      destruct (row_axpy_spec w1 n p _ k j (L k j) Hw1) as (w2 & E2 & Hw2); [lia|lia|].
      exists w2. split; [exact E2|]. eapply is_mat_ext; [|exact Hw2].
      intros i c Hi Hc. unfold rupd. rewrite Nat.eqb_refl.
      destruct (Nat.eqb_spec i k); [|reflexivity]. destruct (Nat.eqb_spec j k); [lia|]. reflexivity.
    + rewrite E1. cbn [bind]. rewrite (is_mat_get _ _ _ _ k k HM) by lia. cbn [bind].
      destruct (row_div_spec w1 n p _ k (L k k) Hw1) as (w2 & E2 & Hw2); [lia|].
      exists w2. split; [exact E2|].
      set (v0 := fun c => subn (b k c) k (fun l => mul (x l c) (L k l))) in *.
      exists (rupd x k (fun c => mul (v0 c) (div one (L k k)))).
      split; [|split].
      * eapply is_mat_ext; [|exact Hw2]. intros i c Hi Hc. unfold rupd. rewrite Nat.eqb_refl. destruct (i =? k); reflexivity.
      * intros r c Hr Hc. unfold rupd at 1. destruct (Nat.eqb_spec r k).
        -- subst r. unfold v0. f_equal. apply subn_ext. intros l Hl. unfold rupd.
           destruct (Nat.eqb_spec l k); [lia|reflexivity].
        -- rewrite (H2 r c) by lia. f_equal. apply subn_ext. intros l Hl. unfold rupd.
           destruct (Nat.eqb_spec l k); [lia|reflexivity].
      * intros r c Hr Hr'. unfold rupd. destruct (Nat.eqb_spec r k); [lia|]. apply H3; lia.
  - exists w, x. auto.
Qed.

Lemma subst_backward_mat_spec M n U B p b : is_mat M n n U -> is_mat B n p b ->
  exists X x, subst_backward_mat M B = Ret X /\ is_mat X n p x /\ bwdm_sol n p U b x.
Proof.
  intros HM HB. unfold subst_backward_mat. destruct (is_mat_dim _ _ _ _ HM) as [-> ->]. rewrite Nat.min_id.
  match goal with |- context [for_loop_rev 0 n ?body _] => set (bd := body) end.
  destruct (for_loop_rev_ind (fun k w => exists x, is_mat w n p x /\
      (forall r c, k <= r < n -> c < p -> x r c = mul (bwdm_sum n U b x r c) (div one (U r r))) /\
      (forall r c, r < k -> x r c = b r c)) bd 0 n B) as (w & E & x & H1 & H2 & _).
  - lia.
  - exists b. split; [assumption|]. split; [intros k c Hk; lia | auto].
  - intros k w Hk (x & H1 & H2 & H3). unfold bd.
    match goal with |- context [for_loop_rev (k+1) n ?body _] => set (bd2 := body) end.
    destruct (for_loop_rev_ind (fun j w => is_mat w n p (rupd x k (fun c => subn (b k c) (n - j) (fun t => mul (x (n - S t) c) (U k (n - S t))))))
      bd2 (k+1) n w) as (w1 & E1 & Hw1).
    + lia.
    + rewrite Nat.sub_diag. simpl. eapply is_mat_ext; [|exact H1]. intros i c Hi Hc. unfold rupd.
      destruct (Nat.eqb_spec i k); [subst; apply H3; lia|reflexivity].
    + intros j w1 Hj Hw1. unfold bd2. rewrite (is_mat_get _ _ _ _ k j HM) by lia. cbn [bind].
      destruct (row_axpy_spec w1 n p _ k j (U k j) Hw1) as (w2 & E2 & Hw2); [lia|lia|].
      exists w2. split; [exact E2|]. eapply is_mat_ext; [|exact Hw2].
      intros i c Hi Hc. unfold rupd. rewrite Nat.eqb_refl.
      destruct (Nat.eqb_spec i k); [|reflexivity]. destruct (Nat.eqb_spec j k); [lia|].
      replace (n - j) with (S (n - S j)) by lia. cbn [subn].
      replace (n - S (n - S j)) with j by lia. reflexivity.
    + rewrite E1. cbn [bind]. rewrite (is_mat_get _ _ _ _ k k HM) by lia. cbn [bind].
      set (v0 := fun c => subn (b k c) (n - (k + 1)) (fun t => mul (x (n - S t) c) (U k (n - S t)))) in *.
      destruct (row_div_spec w1 n p _ k (U k k) Hw1) as (w2 & E2 & Hw2); [lia|].
      exists w2. split; [exact E2|].
      exists (rupd x k (fun c => mul (v0 c) (div one (U k k)))).
      split; [|split].
      * eapply is_mat_ext; [|exact Hw2]. intros i c Hi Hc. unfold rupd. rewrite Nat.eqb_refl. destruct (i =? k); reflexivity.
      * intros r c Hr Hc.
        assert (Ex : bwdm_sum n U b (rupd x k (fun c => mul (v0 c) (div one (U k k)))) r c = bwdm_sum n U b x r c).
        { unfold bwdm_sum. apply subn_ext. intros l Hl. unfold rupd.
          destruct (Nat.eqb_spec (n - S l) k); [lia|reflexivity]. }
        rewrite Ex. unfold rupd. destruct (Nat.eqb_spec r k).
        -- subst r. unfold v0, bwdm_sum. replace (n - (k + 1)) with (n - S k) by lia. reflexivity.
        -- apply H2; lia.
      * intros r c Hr. unfold rupd. destruct (Nat.eqb_spec r k); [lia|]. apply H3; lia.
  - exists w, x. split; [exact E|]. split; [exact H1|]. intros k c Hk Hc. apply H2; lia.
Qed.

(** ** The other triangle is never read *)

Lemma subst_forward_vec_lower M M' n L L' v : is_mat M n n L -> is_mat M' n n L' ->
  (forall k l, k < n -> l <= k -> L k l = L' k l) -> subst_forward_vec M v = subst_forward_vec M' v.
Proof.
  intros H H' E. unfold subst_forward_vec. rewrite (is_mat_cols _ _ _ _ H), (is_mat_cols _ _ _ _ H').
  apply for_loop_ext. intros k w Hk.
  rewrite (is_mat_get _ _ _ _ k k H), (is_mat_get _ _ _ _ k k H') by lia. rewrite E by lia.
  rewrite (for_loop_ext _ (fun l b => let! x := vvget b k in let! y := mget M' k l in let! z := vvget b l in
     vvset b k (sub x (mul y z)))); [reflexivity|].
  intros l b Hl. rewrite (is_mat_get _ _ _ _ k l H), (is_mat_get _ _ _ _ k l H') by lia. rewrite E by lia. reflexivity.
Qed.

Lemma for_loop_rev_ext {St} (b1 b2 : nat -> St -> outcome St) lo hi s :
  (forall i s, lo <= i < hi -> b1 i s = b2 i s) ->
  for_loop_rev lo hi b1 s = for_loop_rev lo hi b2 s.
Proof.
  intros H. unfold for_loop_rev.
  assert (G : forall k s, lo + k <= Nat.max lo hi -> for_down k lo b1 s = for_down k lo b2 s).
  { induction k; intros s0 Hk; simpl; [reflexivity|]. rewrite H by lia.
    destruct (b2 (lo + k) s0); simpl; [|reflexivity]. apply IHk. lia. }
  apply G. lia.
Qed.

Lemma subst_backward_vec_upper M M' n L L' v : is_mat M n n L -> is_mat M' n n L' ->
  (forall k l, l < n -> k <= l -> L k l = L' k l) -> subst_backward_vec M v = subst_backward_vec M' v.
Proof.
  intros H H' E. unfold subst_backward_vec. rewrite (is_mat_cols _ _ _ _ H), (is_mat_cols _ _ _ _ H').
  apply for_loop_rev_ext. intros k w Hk.
  rewrite (is_mat_get _ _ _ _ k k H), (is_mat_get _ _ _ _ k k H') by lia. rewrite E by lia.
  rewrite (for_loop_rev_ext _ (fun l b => let! x := vvget b k in let! y := mget M' k l in let! z := vvget b l in
     vvset b k (sub x (mul y z)))); [reflexivity|].
  intros l b Hl. rewrite (is_mat_get _ _ _ _ k l H), (is_mat_get _ _ _ _ k l H') by lia. rewrite E by lia. reflexivity.
Qed.

Lemma subst_forward_mat_lower M M' n L L' v : is_mat M n n L -> is_mat M' n n L' ->
  (forall k l, k < n -> l <= k -> L k l = L' k l) -> subst_forward_mat M v = subst_forward_mat M' v.
Proof.
  intros H H' E. unfold subst_forward_mat.
  rewrite (is_mat_cols _ _ _ _ H), (is_mat_cols _ _ _ _ H'), (is_mat_rows _ _ _ _ H), (is_mat_rows _ _ _ _ H'), Nat.min_id.
  apply for_loop_ext. intros k w Hk.
  rewrite (is_mat_get _ _ _ _ k k H), (is_mat_get _ _ _ _ k k H') by lia. rewrite E by lia.
  rewrite (for_loop_ext _ (fun l b => let! y := mget M' k l in row_axpy b k l y)); [reflexivity|].
  intros l b Hl. rewrite (is_mat_get _ _ _ _ k l H), (is_mat_get _ _ _ _ k l H') by lia. rewrite E by lia. reflexivity.
Qed.

Lemma subst_backward_mat_upper M M' n L L' v : is_mat M n n L -> is_mat M' n n L' ->
  (forall k l, l < n -> k <= l -> L k l = L' k l) -> subst_backward_mat M v = subst_backward_mat M' v.
Proof.
  intros H H' E. unfold subst_backward_mat.
  rewrite (is_mat_cols _ _ _ _ H), (is_mat_cols _ _ _ _ H'), (is_mat_rows _ _ _ _ H), (is_mat_rows _ _ _ _ H'), Nat.min_id.
  apply for_loop_rev_ext. intros k w Hk.
  rewrite (is_mat_get _ _ _ _ k k H), (is_mat_get _ _ _ _ k k H') by lia. rewrite E by lia.
  rewrite (for_loop_rev_ext _ (fun l b => let! y := mget M' k l in row_axpy b k l y)); [reflexivity|].
  intros l b Hl. rewrite (is_mat_get _ _ _ _ k l H), (is_mat_get _ _ _ _ k l H') by lia. rewrite E by lia. reflexivity.
Qed.

(** ** solve and inv always return Ok *)

Lemma dec_lu_total A n f : is_mat A n n f ->
  exists Lm U P a s, dec_lu A = Ret (Ok (mkLU Lm U P)) /\
    is_mat Lm n n (lpart a) /\ is_mat U n n (upart a) /\ is_mat P n n (perm_fun s) /\ perm_on n s.
Proof.
  intros HA. destruct (dec_lu_gen (fun _ _ _ => True) A n f HA I) as (Lm & U & P & a & s & E & HL & HU & HP & Hs & _).
  - auto.
  - exists Lm, U, P, a, s. conj_auto.
Qed.

Lemma solve_vec_total A n f v b : is_mat A n n f -> is_col v n b ->
  exists w x, solve_vec A v = Ret (Ok w) /\ is_col w n x.
Proof.
  intros HA Hv. destruct (dec_lu_total A n f HA) as (Lm & U & P & a & s & E & HL & HU & HP & Hs).
  unfold solve_vec. rewrite E. cbn [bind runwrap lu_p lu_l lu_u].
  destruct (mmul_vec_spec P n n _ v b HP Hv) as (pb & E1 & H1). rewrite E1. cbn [bind].
  destruct (subst_forward_vec_spec Lm n _ pb _ HL H1) as (y & yf & E2 & H2 & _). rewrite E2. cbn [bind].
  destruct (subst_backward_vec_spec U n _ y _ HU H2) as (x & xf & E3 & H3 & _). rewrite E3. cbn [bind].
  eauto.
Qed.

Lemma solve_mat_total A n f B p b : is_mat A n n f -> is_mat B n p b ->
  exists X x, solve_mat A B = Ret (Ok X) /\ is_mat X n p x.
Proof.
  intros HA HB. destruct (dec_lu_total A n f HA) as (Lm & U & P & a & s & E & HL & HU & HP & Hs).
  unfold solve_mat, lu_solve_mat. rewrite E. cbn [bind rtry lu_p lu_l lu_u].
  destruct (mmul_spec P B n n p _ b HP HB) as (pb & E1 & H1). rewrite E1. cbn [bind].
  destruct (subst_forward_mat_spec Lm n _ pb _ _ HL H1) as (y & yf & E2 & H2 & _). rewrite E2. cbn [bind].
  destruct (subst_backward_mat_spec U n _ y _ _ HU H2) as (x & xf & E3 & H3 & _). rewrite E3. cbn [bind].
  eauto.
Qed.

Lemma minv_solve A n f : is_mat A n n f -> exists I, mone n = Ret I /\ minv A = solve_mat A I.
Proof.
  intros HA. destruct (dec_lu_total A n f HA) as (Lm & U & P & a & s & E & HL & HU & HP & Hs).
  destruct (mone_spec n) as (I & EI & HI). exists I. split; [assumption|].
  unfold minv, solve_mat, lu_inv. rewrite E. cbn [bind rtry lu_p lu_l lu_u].
  rewrite (is_mat_rows _ _ _ _ HP), EI. cbn [bind].
  destruct (lu_solve_mat (mkLU Lm U P) I) as [[x|]|]; reflexivity.
Qed.

Lemma minv_total A n f : is_mat A n n f -> exists X x, minv A = Ret (Ok X) /\ is_mat X n n x.
Proof.
  intros HA. destruct (minv_solve A n f HA) as (I & EI & ->).
  destruct (mone_spec n) as (I' & EI' & HI). rewrite EI in EI'. injection EI' as <-.
  apply (solve_mat_total A n f I n delta); assumption.
Qed.

End NoLaws.

Section Laws.
Context {T : Type} {O : Ops T} (F : FieldLaws O).
Let L := fl_ring O F.
Add Ring Tr2 : (rl_ring O L).

Lemma eqb_zero_false (x : T) : x <> zero -> eqb x zero = false.
Proof. intros H. destruct (eqb x zero) eqn:E; [|reflexivity]. apply (fl_eq O F) in E. contradiction. Qed.

Lemma subn_sum (b : T) k f : add (subn b k f) (sumn k f) = b.
Proof.
  induction k; simpl; [ring|]. transitivity (add (subn b k f) (sumn k f)); [ring | exact IHk].
Qed.

Lemma sumn_rev_tail n k (f : nat -> T) : k < n ->
  sumn (n - S k) (fun t => f (n - S t)) = sumn n (fun l => if k <? l then f l else zero).
Proof.
  intros Hk. induction n; [lia|]. cbn [sumn]. destruct (Nat.eq_dec k n) as [->|Hne].
  - rewrite Nat.sub_diag, Nat.ltb_irrefl. cbn [sumn].
    rewrite (sumn_zero_ext L); [ring|]. intros l Hl. bcase.
  - replace (S n - S k) with (S (n - S k)) by lia. rewrite (sumn_first L).
    replace (S n - 1) with n by lia.
    replace (k <? n) with true by (symmetry; apply Nat.ltb_lt; lia).
    rewrite <- IHn by lia. rewrite (Ring_theory.Radd_comm (rl_ring O L)). reflexivity.
Qed.

Lemma div_mul_eq (x y : T) : y <> zero -> mul y (div x y) = x.
Proof. intros H. rewrite (Ring_theory.Rmul_comm (rl_ring O L)). apply (fl_div O F). assumption. Qed.
Lemma mul_div_one (x y : T) : y <> zero -> mul y (mul x (div one y)) = x.
Proof.
  intros H. transitivity (mul x (mul y (div one y))); [ring|]. rewrite div_mul_eq by assumption. ring.
Qed.
Lemma mul_cancel_l (a x y : T) : a <> zero -> mul a x = mul a y -> x = y.
Proof.
  intros H E. rewrite <- (mul_div_one x a H), <- (mul_div_one y a H).
  transitivity (mul (mul a x) (div one a)); [ring|]. rewrite E. ring.
Qed.
Lemma mul_zero_inv (a x : T) : a <> zero -> mul a x = zero -> x = zero.
Proof. intros H E. apply (mul_cancel_l a); [assumption|]. rewrite E. ring. Qed.

(** The triangular systems. *)
Definition lower_sys (n : nat) (Lf : nat -> nat -> T) (x b : nat -> T) (k : nat) : Prop :=
  sumn n (fun l => if l <=? k then mul (Lf k l) (x l) else zero) = b k.
Definition upper_sys (n : nat) (Uf : nat -> nat -> T) (x b : nat -> T) (k : nat) : Prop :=
  sumn n (fun l => if k <=? l then mul (Uf k l) (x l) else zero) = b k.

Lemma sum_lower n k (g : nat -> T) : k < n ->
  sumn n (fun l => if l <=? k then g l else zero) = add (sumn k g) (g k).
Proof.
  intros Hk. rewrite (sumn_trunc L (S k) n) by (try lia; intros; bcase).
  cbn [sumn]. rewrite Nat.leb_refl. f_equal. apply sumn_ext. intros l Hl. bcase.
Qed.
Lemma sum_upper n k (g : nat -> T) : k < n ->
  sumn n (fun l => if k <=? l then g l else zero) = add (sumn n (fun l => if k <? l then g l else zero)) (g k).
Proof.
  intros Hk. rewrite (sumn_ext n _ (fun l => add (if k <? l then g l else zero) (if l =? k then g l else zero))).
  - rewrite (sumn_add L). f_equal. rewrite (sumn_single L n k); [rewrite Nat.eqb_refl; reflexivity | assumption|].
    intros i Hi Hne. bcase.
  - intros l Hl. destruct (Nat.ltb_spec k l); destruct (Nat.leb_spec k l); destruct (Nat.eqb_spec l k); try lia; ring.
Qed.

Lemma fwd_sol_eq n Lf b x k : fwd_sol n Lf b x -> k < n -> Lf k k <> zero -> lower_sys n Lf x b k.
Proof.
  intros H Hk Hz. unfold lower_sys. rewrite (sum_lower n k (fun l => mul (Lf k l) (x l)) Hk).
  rewrite (H k Hk) at 1. rewrite div_mul_eq by assumption.
  rewrite (Ring_theory.Radd_comm (rl_ring O L)). apply subn_sum.
Qed.

Lemma bwd_sol_eq n Uf b x k : bwd_sol n Uf b x -> k < n -> Uf k k <> zero -> upper_sys n Uf x b k.
Proof.
  intros H Hk Hz. unfold upper_sys. rewrite (sum_upper n k (fun l => mul (Uf k l) (x l)) Hk).
  rewrite (H k Hk) at 1. rewrite eqb_zero_false by assumption. cbn [negb].
  rewrite div_mul_eq by assumption.
  rewrite <- (sumn_rev_tail n k (fun l => mul (Uf k l) (x l)) Hk).
  rewrite (Ring_theory.Radd_comm (rl_ring O L)). apply subn_sum.
Qed.

Lemma fwdm_sol_eq n p Lf b x k c : fwdm_sol n p Lf b x -> k < n -> c < p -> Lf k k <> zero ->
  lower_sys n Lf (fun l => x l c) (fun l => b l c) k.
Proof.
  intros H Hk Hc Hz. unfold lower_sys. rewrite (sum_lower n k (fun l => mul (Lf k l) (x l c)) Hk).
  rewrite (H k c Hk Hc) at 1. rewrite mul_div_one by assumption.
  rewrite (sumn_ext k _ (fun l => mul (x l c) (Lf k l))) by (intros; ring).
  rewrite (Ring_theory.Radd_comm (rl_ring O L)). apply subn_sum.
Qed.

Lemma bwdm_sol_eq n p Uf b x k c : bwdm_sol n p Uf b x -> k < n -> c < p -> Uf k k <> zero ->
  upper_sys n Uf (fun l => x l c) (fun l => b l c) k.
Proof.
  intros H Hk Hc Hz. unfold upper_sys. rewrite (sum_upper n k (fun l => mul (Uf k l) (x l c)) Hk).
  rewrite (H k c Hk Hc) at 1. rewrite mul_div_one by assumption.
  rewrite (sumn_ext n _ (fun l => if k <? l then mul (x l c) (Uf k l) else zero)).
  2:{ intros l Hl. destruct (k <? l); ring. }
  rewrite <- (sumn_rev_tail n k (fun l => mul (x l c) (Uf k l)) Hk).
  rewrite (Ring_theory.Radd_comm (rl_ring O L)). apply subn_sum.
Qed.

(** Uniqueness of the solutions. *)
Lemma lower_sys_unique n Lf x y b : (forall k, k < n -> Lf k k <> zero) ->
  (forall k, k < n -> lower_sys n Lf x b k) -> (forall k, k < n -> lower_sys n Lf y b k) ->
  forall k, k < n -> x k = y k.
Proof.
  intros Hz Hx Hy k. induction k as [k IH] using (well_founded_induction lt_wf). intros Hk.
  apply (mul_cancel_l (Lf k k)); [auto|].
  pose proof (Hx k Hk) as Ex. pose proof (Hy k Hk) as Ey. unfold lower_sys in Ex, Ey.
  rewrite (sum_lower n k (fun l => mul (Lf k l) (x l)) Hk) in Ex.
  rewrite (sum_lower n k (fun l => mul (Lf k l) (y l)) Hk) in Ey.
  assert (E : sumn k (fun l => mul (Lf k l) (x l)) = sumn k (fun l => mul (Lf k l) (y l))).
  { apply sumn_ext. intros l Hl. rewrite IH by lia. reflexivity. }
  rewrite E in Ex. set (S0 := sumn k _) in *. cbv beta in Ex, Ey.
  transitivity (sub (add S0 (mul (Lf k k) (x k))) S0); [ring|]. rewrite Ex, <- Ey. ring.
Qed.

Lemma upper_sys_unique n Uf x y b : (forall k, k < n -> Uf k k <> zero) ->
  (forall k, k < n -> upper_sys n Uf x b k) -> (forall k, k < n -> upper_sys n Uf y b k) ->
  forall k, k < n -> x k = y k.
Proof.
  intros Hz Hx Hy k Hk. remember (n - k) as d eqn:Ed. revert k Hk Ed.
  induction d as [d IH] using (well_founded_induction lt_wf). intros k Hk Ed.
  apply (mul_cancel_l (Uf k k)); [auto|].
  pose proof (Hx k Hk) as Ex. pose proof (Hy k Hk) as Ey. unfold upper_sys in Ex, Ey.
  rewrite (sum_upper n k (fun l => mul (Uf k l) (x l)) Hk) in Ex.
  rewrite (sum_upper n k (fun l => mul (Uf k l) (y l)) Hk) in Ey.
  assert (E : sumn n (fun l => if k <? l then mul (Uf k l) (x l) else zero) =
              sumn n (fun l => if k <? l then mul (Uf k l) (y l) else zero)).
  { apply sumn_ext. intros l Hl. destruct (Nat.ltb_spec k l); [|reflexivity].
    rewrite (IH (n - l)) by lia. reflexivity. }
  rewrite E in Ex. set (S0 := sumn n _) in *. cbv beta in Ex, Ey.
  transitivity (sub (add S0 (mul (Uf k k) (x k))) S0); [ring|]. rewrite Ex, <- Ey. ring.
Qed.

(** ** P A = L U systems *)

Lemma perm_surj n s : perm_on n s -> forall k, k < n -> exists r, r < n /\ s r = k.
Proof.
  intros [H1 H2] k Hk.
  assert (B : bSurjective n s).
  { apply bInjective_bSurjective; [exact H1|]. intros a b Ha Hb. apply H2; assumption. }
  destruct (B k Hk) as (r & Hr & E). eauto.
Qed.

(** Mv(x) for entry functions. *)
Definition mvf (n : nat) (f : nat -> nat -> T) (x : nat -> T) (r : nat) : T :=
  sumn n (fun c => mul (f r c) (x c)).

Lemma lpart_lower_sys n a x b r : r < n ->
  lower_sys n (lpart a) x b r <-> mvf n (lpart a) x r = b r.
Proof.
  intros Hr. unfold lower_sys, mvf. rewrite (sumn_ext n (fun l => if l <=? r then _ else _) (fun c => mul (lpart a r c) (x c))); [reflexivity|].
  intros l Hl. destruct (Nat.leb_spec l r); [reflexivity|]. unfold lpart, delta.
  destruct (Nat.ltb_spec l r); [lia|]. destruct (Nat.eqb_spec r l); [lia|]. ring.
Qed.
Lemma upart_upper_sys n a x b r : r < n ->
  upper_sys n (upart a) x b r <-> mvf n (upart a) x r = b r.
Proof.
  intros Hr. unfold upper_sys, mvf. rewrite (sumn_ext n (fun l => if r <=? l then _ else _) (fun c => mul (upart a r c) (x c))); [reflexivity|].
  intros l Hl. destruct (Nat.leb_spec r l); [reflexivity|]. unfold upart.
  destruct (Nat.leb_spec r l); [lia|]. ring.
Qed.

Lemma mvf_mulf n f g x r : mvf n (mulf n f g) x r = mvf n f (mvf n g x) r.
Proof.
  unfold mvf, mulf.
  rewrite (sumn_ext n _ (fun c => sumn n (fun l => mul (mul (f r l) (g l c)) (x c)))).
  2:{ intros c Hc. rewrite (sumn_mul_r L). reflexivity. }
  rewrite (sumn_swap L). apply sumn_ext. intros l Hl. rewrite <- (sumn_mul_l L).
  apply sumn_ext. intros c Hc. ring.
Qed.

Lemma lpart_diag a k : lpart a k k = one.
Proof. unfold lpart, delta. rewrite Nat.ltb_irrefl, Nat.eqb_refl. reflexivity. Qed.
Lemma upart_diag a k : upart a k k = a k k.
Proof. unfold upart. rewrite Nat.leb_refl. reflexivity. Qed.

Lemma lu_err_zero n a : (forall k, k < n -> a k k <> zero \/ forall r, k < r < n -> a r k = zero) ->
  forall r c, r < n -> c < n -> lu_err a r c = zero.
Proof.
  intros H r c Hr Hc. unfold lu_err. destruct (Nat.ltb_spec c r); [|reflexivity]. cbn [andb].
  destruct (H c Hc) as [Hz|Hz].
  - rewrite eqb_zero_false by assumption. reflexivity.
  - destruct (eqb (a c c) zero); auto.
Qed.

(** A x = b iff U x = L^-1 P b. *)
Lemma lu_solves n f a s b y x :
  perm_on n s ->
  (forall r c, r < n -> c < n -> f (s r) c = mulf n (lpart a) (upart a) r c) ->
  (forall r, r < n -> mvf n (lpart a) y r = b (s r)) ->
  (forall r, r < n -> mvf n (upart a) x r = y r) ->
  forall r, r < n -> mvf n f x r = b r.
Proof.
  intros Hs HA Hy Hx r Hr. destruct (perm_surj n s Hs r Hr) as (q & Hq & <-).
  transitivity (mvf n (mulf n (lpart a) (upart a)) x q).
  - unfold mvf. apply sumn_ext. intros c Hc. rewrite HA by assumption. reflexivity.
  - rewrite mvf_mulf. rewrite <- Hy by assumption. unfold mvf at 1 3. apply sumn_ext. intros c Hc.
    rewrite Hx by assumption. reflexivity.
Qed.

Lemma lu_injective n f a s x y :
  perm_on n s -> (forall k, k < n -> a k k <> zero) ->
  (forall r c, r < n -> c < n -> f (s r) c = mulf n (lpart a) (upart a) r c) ->
  (forall r, r < n -> mvf n f x r = mvf n f y r) ->
  forall r, r < n -> x r = y r.
Proof.
  intros Hs Hz HA E.
  assert (E2 : forall r, r < n -> mvf n (upart a) x r = mvf n (upart a) y r).
  { apply (lower_sys_unique n (lpart a) _ _ (fun r => mvf n f x (s r))).
    - intros k Hk. rewrite lpart_diag. apply (fl_one_zero O F).
    - intros k Hk. apply lpart_lower_sys; [assumption|]. rewrite <- mvf_mulf. unfold mvf at 1 2.
      apply sumn_ext. intros c Hc. rewrite HA by assumption. reflexivity.
    - intros k Hk. apply lpart_lower_sys; [assumption|]. rewrite E by (apply Hs; assumption).
      rewrite <- mvf_mulf. unfold mvf at 1 2.
      apply sumn_ext. intros c Hc. rewrite HA by assumption. reflexivity. }
  apply (upper_sys_unique n (upart a) x y (fun r => mvf n (upart a) x r)).
  - intros k Hk. rewrite upart_diag. auto.
  - intros k Hk. apply upart_upper_sys; auto.
  - intros k Hk. apply upart_upper_sys; [assumption|]. symmetry. auto.
Qed.

(** The factor U returned for A has no zero on its diagonal. *)
Definition lu_regular (A : matrix T) (n : nat) : Prop :=
  exists d, dec_lu A = Ret (Ok d) /\ forall k x, k < n -> mget (lu_u d) k k = Ret x -> x <> zero.

Lemma lu_regular_spec A n f : is_mat A n n f -> lu_regular A n ->
  exists Lm U P a s, dec_lu A = Ret (Ok (mkLU Lm U P)) /\
    is_mat Lm n n (lpart a) /\ is_mat U n n (upart a) /\ is_mat P n n (perm_fun s) /\ perm_on n s /\
    (forall k, k < n -> a k k <> zero) /\
    forall r c, r < n -> c < n -> f (s r) c = mulf n (lpart a) (upart a) r c.
Proof.
  intros HA (d & Ed & Hd). destruct (dec_lu_spec F A n f HA) as (Lm & U & P & a & s & E & HL & HU & HP & Hs & He).
  rewrite E in Ed. injection Ed as <-. cbn [lu_u] in Hd.
  assert (Hz : forall k, k < n -> a k k <> zero).
  { intros k Hk. rewrite <- upart_diag. apply (Hd k); [assumption|]. apply (is_mat_get _ _ _ _ _ _ HU); assumption. }
  exists Lm, U, P, a, s. conj_auto. intros r c Hr Hc. rewrite He by assumption.
  rewrite (lu_err_zero n) by (auto). ring.
Qed.

Lemma perm_mvf n s (b : nat -> T) r : perm_on n s -> r < n ->
  sumn n (fun k => mul (perm_fun s r k) (b k)) = b (s r).
Proof. intros Hs Hr. exact (perm_mulf F n s (fun i _ => b i) r 0 Hs Hr). Qed.

Lemma solve_vec_ok A n f v b : is_mat A n n f -> is_col v n b -> lu_regular A n ->
  exists w x, solve_vec A v = Ret (Ok w) /\ is_col w n x /\ (forall r, r < n -> mvf n f x r = b r) /\
    (forall y, (forall r, r < n -> mvf n f y r = b r) -> forall r, r < n -> y r = x r).
Proof.
  intros HA Hv HR. destruct (lu_regular_spec A n f HA HR) as (Lm & U & P & a & s & E & HL & HU & HP & Hs & Hz & He).
  unfold solve_vec. rewrite E. cbn [bind runwrap lu_p lu_l lu_u].
  destruct (mmul_vec_spec P n n _ v b HP Hv) as (pb & E1 & H1). rewrite E1. cbn [bind].
  destruct (subst_forward_vec_spec Lm n _ pb _ HL H1) as (y & yf & E2 & H2 & S2). rewrite E2. cbn [bind].
  destruct (subst_backward_vec_spec U n _ y _ HU H2) as (x & xf & E3 & H3 & S3). rewrite E3. cbn [bind].
  exists x, xf. split; [reflexivity|]. split; [assumption|].
  assert (Hsol : forall r, r < n -> mvf n f xf r = b r).
  { apply (lu_solves n f a s b yf xf Hs He).
    - intros r Hr. rewrite <- (perm_mvf n s b r Hs Hr).
      apply (proj1 (lpart_lower_sys n a yf (fun r => sumn n (fun k => mul (perm_fun s r k) (b k))) r Hr)).
      apply fwd_sol_eq; [exact S2 | exact Hr|]. rewrite lpart_diag. apply (fl_one_zero O F).
    - intros r Hr. apply (proj1 (upart_upper_sys n a xf yf r Hr)).
      apply bwd_sol_eq; [exact S3 | exact Hr|]. rewrite upart_diag. auto. }
  split; [exact Hsol|].
  intros z Hz' r Hr. apply (lu_injective n f a s z xf Hs Hz He); [|assumption].
  intros q Hq. rewrite Hz', Hsol by assumption. reflexivity.
Qed.

Lemma solve_mat_ok A n f B p b : is_mat A n n f -> is_mat B n p b -> lu_regular A n ->
  exists X x, solve_mat A B = Ret (Ok X) /\ is_mat X n p x /\
    (forall r c, r < n -> c < p -> mulf n f x r c = b r c) /\
    (forall y, (forall r c, r < n -> c < p -> mulf n f y r c = b r c) -> forall r c, r < n -> c < p -> y r c = x r c).
Proof.
  intros HA HB HR. destruct (lu_regular_spec A n f HA HR) as (Lm & U & P & a & s & E & HL & HU & HP & Hs & Hz & He).
  unfold solve_mat, lu_solve_mat. rewrite E. cbn [bind rtry lu_p lu_l lu_u].
  destruct (mmul_spec P B n n p _ b HP HB) as (pb & E1 & H1). rewrite E1. cbn [bind].
  destruct (subst_forward_mat_spec Lm n _ pb _ _ HL H1) as (y & yf & E2 & H2 & S2). rewrite E2. cbn [bind].
  destruct (subst_backward_mat_spec U n _ y _ _ HU H2) as (x & xf & E3 & H3 & S3). rewrite E3. cbn [bind].
  exists x, xf. split; [reflexivity|]. split; [assumption|].
  assert (Hsol : forall c, c < p -> forall r, r < n -> mvf n f (fun l => xf l c) r = b r c).
  { intros c Hc. apply (lu_solves n f a s (fun l => b l c) (fun l => yf l c) (fun l => xf l c) Hs He).
    - intros r Hr. rewrite <- (perm_mvf n s (fun l => b l c) r Hs Hr).
      apply (proj1 (lpart_lower_sys n a (fun l => yf l c) (fun r => mulf n (perm_fun s) b r c) r Hr)).
      apply (fwdm_sol_eq n p (lpart a) (mulf n (perm_fun s) b)); [exact S2 | exact Hr| exact Hc|].
      rewrite lpart_diag. apply (fl_one_zero O F).
    - intros r Hr. apply (proj1 (upart_upper_sys n a (fun l => xf l c) (fun l => yf l c) r Hr)).
      apply (bwdm_sol_eq n p (upart a) yf); [exact S3 | exact Hr | exact Hc|]. rewrite upart_diag. auto. }
  split; [intros r c Hr Hc; exact (Hsol c Hc r Hr)|].
  intros z Hz' r c Hr Hc.
  apply (lu_injective n f a s (fun l => z l c) (fun l => xf l c) Hs Hz He); [|assumption].
  intros q Hq. rewrite Hsol by assumption. apply Hz'; assumption.
Qed.

Lemma minv_ok A n f : is_mat A n n f -> lu_regular A n ->
  exists X I, minv A = Ret (Ok X) /\ mone n = Ret I /\ mmul A X = Ret I /\ mmul X A = Ret I.
Proof.
  intros HA HR. destruct (minv_solve A n f HA) as (I & EI & Em).
  destruct (mone_spec n) as (I' & EI' & HI). rewrite EI in EI'. injection EI' as <-.
  destruct (solve_mat_ok A n f I n delta HA HI HR) as (X & x & EX & HX & Hr & Hu).
  exists X, I. rewrite Em, EX. split; [reflexivity|]. split; [assumption|].
  assert (HxA : forall r c, r < n -> c < n -> mulf n x f r c = delta r c).
  { destruct (lu_regular_spec A n f HA HR) as (Lm & U & P & a & s & E & HL & HU & HP & Hs & Hz & He).
    intros r c Hr' Hc.
    apply (lu_injective n f a s (fun l => mulf n x f l c) (fun l => delta l c) Hs Hz He); [|assumption].
    intros q Hq.
    transitivity (mulf n f (mulf n x f) q c); [reflexivity|].
    transitivity (mulf n f delta q c); [|reflexivity].
    rewrite <- (mulf_assoc L). transitivity (f q c).
    - transitivity (mulf n delta f q c); [|apply (mulf_id_l L); assumption].
      apply mulf_ext; auto.
    - symmetry. apply (mulf_id_r L). assumption. }
  destruct (mmul_spec A X n n n f x HA HX) as (C1 & E1 & H1).
  destruct (mmul_spec X A n n n x f HX HA) as (C2 & E2 & H2).
  split.
  - rewrite E1. f_equal. eapply is_mat_unique; [|exact HI]. eapply is_mat_ext; [|exact H1]. exact Hr.
  - rewrite E2. f_equal. eapply is_mat_unique; [|exact HI]. eapply is_mat_ext; [|exact H2]. exact HxA.
Qed.

End Laws.
