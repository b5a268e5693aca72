(** Proofs about the LU decomposition. *)
From Coq Require Import Arith List Bool Lia Ring.
From Verif Require Import Outcome Scalar Matrix_model Transpose_model Vector_model LU_model Matrix_spec LU_spec
  Matrix_proofs Transpose_proofs Vector_proofs Sums.
Import ListNotations.
Local Open Scope nat_scope.

Ltac conj_auto := repeat (split; [solve [reflexivity | assumption | auto] |]); try solve [reflexivity | assumption | auto].

Section LU.
Context {T : Type} {O : Ops T}.

(** Entry function after elimination in column i. *)
Definition lu_fac (f : nat -> nat -> T) (i j : nat) : T :=
  if negb (eqb (f i i) zero) then div (f j i) (f i i) else f j i.
Definition elimf (i : nat) (f : nat -> nat -> T) : nat -> nat -> T :=
  fun j k => if j <=? i then f j k
             else if k <? i then f j k
             else if k =? i then lu_fac f i j
             else sub (f j k) (mul (lu_fac f i j) (f i k)).

(** The row chosen by the scan: the first one holding the (signed) maximum of rows i .. i+c. *)
Fixpoint pick (g : nat -> T) (i c : nat) : nat :=
  match c with
  | 0 => i
  | S c' => let k := pick g i c' in if ltb (g k) (g (i + 1 + c')) then i + 1 + c' else k
  end.

Lemma pick_range g i c : i <= pick g i c <= i + c.
Proof. induction c; simpl; [lia|]. destruct (ltb _ _); lia. Qed.

Lemma lu_pivot_spec a n f i : is_mat a n n f -> i < n ->
  lu_pivot a i = Ret (pick (fun r => f r i) i (n - S i)).
Proof.
  intros H Hi. unfold lu_pivot. rewrite (is_mat_get _ _ _ _ _ _ H Hi Hi). cbn [bind].
  rewrite (is_mat_rows _ _ _ _ H).
  match goal with |- context [for_loop (i+1) n ?body _] => set (bd := body) end.
  destruct (for_loop_ind (fun l st => snd st = pick (fun r => f r i) i (l - S i) /\ fst st = f (snd st) i) bd (i+1) n (f i i, i)) as ((x & k) & E & Hk & _).
  - lia.
  - replace (i + 1 - S i) with 0 by lia. split; reflexivity.
  - intros l [y q] Hl [Hq Hy]. unfold bd. rewrite (is_mat_get _ _ _ _ _ _ H) by lia. cbn [bind fst snd] in *.
    replace (S l - S i) with (S (l - S i)) by lia. cbn [pick].
    replace (i + 1 + (l - S i)) with l by lia. rewrite <- Hq, <- Hy.
    destruct (ltb y (f l i)); eexists; split; try reflexivity; split; simpl; auto.
  - rewrite E. cbn [bind snd] in *. rewrite Hk. reflexivity.
Qed.

Lemma lu_elim_spec a n f i : is_mat a n n f -> i < n ->
  exists b, lu_elim a i = Ret b /\ is_mat b n n (elimf i f).
Proof.
  intros H Hi. destruct (is_mat_dim _ _ _ _ H) as [R C]. unfold lu_elim. rewrite C.
  match goal with |- context [for_loop (i+1) n ?body _] => set (bd := body) end.
  destruct (for_loop_ind (fun j b => is_mat b n n (fun r k => if r <? j then elimf i f r k else f r k))
     bd (i+1) n a) as (b & E & Hb).
  - lia.
  - eapply is_mat_ext; [|exact H]. intros r k Hr Hk. unfold elimf. bcase.
  - intros j b Hj Hb. unfold bd. destruct (is_mat_dim _ _ _ _ Hb) as [Rb Cb]. rewrite Cb.
    pose proof (is_mat_get _ _ _ _ i i Hb Hi Hi) as Gii. cbv beta in Gii.
    replace (i <? j) with true in Gii by (symmetry; apply Nat.ltb_lt; lia).
    unfold elimf in Gii. rewrite Nat.leb_refl in Gii.
    pose proof (is_mat_get _ _ _ _ j i Hb ltac:(lia) Hi) as Gji. cbv beta in Gji. rewrite Nat.ltb_irrefl in Gji.
    rewrite Gii, Gji. cbn [bind].
    assert (Ef : (if negb (eqb (f i i) zero) then Ret (div (f j i) (f i i)) else Ret (f j i)) = Ret (lu_fac f i j)).
    { unfold lu_fac. destruct (negb (eqb (f i i) zero)); reflexivity. }
    rewrite Ef. cbn [bind].
    match goal with |- context [for_loop (i+1) n ?body b] => set (bd2 := body) end.
    destruct (for_loop_ind (fun c b' => is_mat b' n n (fun r k => if r <? j then elimf i f r k else
         if (r =? j) && ((i <? k) && (k <? c)) then sub (f r k) (mul (lu_fac f i j) (f i k)) else f r k))
       bd2 (i+1) n b) as (b' & E' & Hb').
    + lia.
    + eapply is_mat_ext; [|exact Hb]. intros r k Hr Hk. bcase.
    + intros c b' Hc Hb'. unfold bd2.
      pose proof (is_mat_get _ _ _ _ j c Hb' ltac:(lia) ltac:(lia)) as G1. cbv beta in G1.
      rewrite Nat.ltb_irrefl, Nat.eqb_refl, Nat.ltb_irrefl, andb_false_r in G1. cbn [andb] in G1.
      pose proof (is_mat_get _ _ _ _ i c Hb' ltac:(lia) ltac:(lia)) as G2. cbv beta in G2.
      replace (i <? j) with true in G2 by (symmetry; apply Nat.ltb_lt; lia).
      unfold elimf in G2. rewrite Nat.leb_refl in G2.
      rewrite G1, G2. cbn [bind].
      destruct (mset_spec b' n n _ j c (sub (f j c) (mul (lu_fac f i j) (f i c))) Hb') as (b2 & E2 & H2); [lia|lia|].
      exists b2. split; [exact E2|]. eapply is_mat_ext; [|exact H2].
      intros r k Hr Hk. unfold fupd.
      destruct (Nat.eqb_spec r j); destruct (Nat.eqb_spec k c); subst; cbn [andb]; bcase.
    + rewrite E'. cbn [bind].
      destruct (mset_spec b' n n _ j i (lu_fac f i j) Hb') as (b2 & E2 & H2); [lia|lia|].
      exists b2. split; [exact E2|]. eapply is_mat_ext; [|exact H2].
      intros r k Hr Hk. unfold fupd, elimf.
      destruct (Nat.eqb_spec r j); destruct (Nat.eqb_spec k i); subst; cbn [andb]; bcase.
  - exists b. split; [exact E|]. eapply is_mat_ext; [|exact Hb]. intros r k Hr Hk. bcase.
Qed.

(** One pass: some row k >= i is exchanged with row i, in both matrices, then column i is eliminated. *)
Lemma swapf_id i (f : nat -> nat -> T) a b : swapf i i f a b = f a b.
Proof. unfold swapf. destruct (Nat.eqb_spec a i); subst; auto. Qed.

Lemma lu_step_spec a p n f g i : is_mat a n n f -> is_mat p n n g -> i < n ->
  let k := pick (fun r => f r i) i (n - S i) in
  exists a' p', lu_step i (a, p) = Ret (a', p') /\
    is_mat a' n n (elimf i (swapf i k f)) /\ is_mat p' n n (swapf i k g).
Proof.
  intros Ha Hp Hi k. unfold lu_step. cbn [fst snd].
  rewrite (lu_pivot_spec a n f i Ha Hi). fold k. cbn [bind].
  assert (Hk : i <= k < n) by (pose proof (pick_range (fun r => f r i) i (n - S i)); unfold k; lia).
  clearbody k. destruct (Nat.eqb_spec i k).
  - subst k. cbn [negb bind fst snd].
    assert (Ha' : is_mat a n n (swapf i i f)) by (eapply is_mat_ext; [|exact Ha]; intros; rewrite swapf_id; reflexivity).
    destruct (lu_elim_spec a n _ i Ha' Hi) as (b & Eb & Hb). rewrite Eb. cbn [bind].
    exists b, p. split; [reflexivity|]. split; [exact Hb|].
    eapply is_mat_ext; [|exact Hp]; intros; rewrite swapf_id; reflexivity.
  - cbn [negb bind].
    destruct (mswap_rows_spec a n n f i k Ha Hi) as (a1 & E1 & H1); [lia|].
    destruct (mswap_rows_spec p n n g i k Hp Hi) as (p1 & E2 & H2); [lia|].
    rewrite E1. cbn [bind]. rewrite E2. cbn [bind fst snd].
    destruct (lu_elim_spec a1 n _ i H1 Hi) as (b & Eb & Hb). rewrite Eb. cbn [bind].
    exists b, p1. auto.
Qed.

(** Combined matrix form: L (strictly below) and U (on and above). *)
Definition lpart (a : nat -> nat -> T) (i j : nat) : T := if j <? i then a i j else delta i j.
Definition upart (a : nat -> nat -> T) (i j : nat) : T := if i <=? j then a i j else zero.

Definition tswap (i k r : nat) : nat := if r =? i then k else if r =? k then i else r.

Lemma tswap_perm n i k : i < n -> k < n -> perm_on n (tswap i k).
Proof.
  intros Hi Hk. unfold tswap. split.
  - intros r Hr. bcase.
  - intros r s Hr Hs. bcase.
Qed.

Lemma perm_comp n s t : perm_on n s -> perm_on n t -> perm_on n (fun r => s (t r)).
Proof. intros [H1 H2] [H3 H4]. split; intros; auto. Qed.

Lemma swapf_tswap i k (f : nat -> nat -> T) a b : swapf i k f a b = f (tswap i k a) b.
Proof. unfold swapf, tswap. bcase. Qed.

(** The storage loops of lu/native.rs:76-90. *)
Lemma lu_extract_l a n f l : is_mat a n n f -> is_mat l n n delta ->
  exists l', for_loop 1 (cols a) (fun i l =>
              for_loop 0 i (fun j l =>
                let! x := vget (data a) (j * rows a + i) in
                let! d := vset (data l) (j * rows a + i) x in
                Ret (mkMatrix (rows l) (cols l) d)) l) l = Ret l' /\ is_mat l' n n (lpart f).
Proof.
  intros Ha Hl. destruct (is_mat_dim _ _ _ _ Ha) as [R C]. rewrite R, C.
  destruct (Nat.eq_dec n 0) as [->|Hn].
  { eexists. split; [reflexivity|]. eapply is_mat_ext; [|exact Hl]. intros; lia. }
  match goal with |- context [for_loop 1 n ?body _] => set (bd := body) end.
  destruct (for_loop_ind (fun i l => is_mat l n n (fun r c => if r <? i then lpart f r c else delta r c))
    bd 1 n l) as (l' & E & H).
  - lia.
  - eapply is_mat_ext; [|exact Hl]. intros r c Hr Hc. unfold lpart. bcase.
  - intros i l1 Hi H1. unfold bd.
    match goal with |- context [for_loop 0 i ?body _] => set (bd2 := body) end.
    destruct (for_loop_ind (fun j l => is_mat l n n (fun r c => if r <? i then lpart f r c else
       if (r =? i) && (c <? j) then f r c else delta r c)) bd2 0 i l1) as (l2 & E2 & H2).
    + lia.
    + eapply is_mat_ext; [|exact H1]. intros r c Hr Hc. bcase.
    + intros j l2 Hj H2. unfold bd2. rewrite (is_mat_vget _ _ _ _ i j Ha) by lia. cbn [bind].
      destruct (is_mat_dim _ _ _ _ H2) as [R2 C2].
      destruct (mset_spec l2 n n _ i j (f i j) H2) as (l3 & E3 & H3); [lia|lia|].
      unfold mset in E3. rewrite R2, C2 in E3.
      replace (i <? n) with true in E3 by (symmetry; apply Nat.ltb_lt; lia).
      replace (j <? n) with true in E3 by (symmetry; apply Nat.ltb_lt; lia).
      cbn [rassert bind] in E3. rewrite R2, C2. exists l3. split; [exact E3|].
      eapply is_mat_ext; [|exact H3]. intros r c Hr Hc. unfold fupd.
      destruct (Nat.eqb_spec r i); destruct (Nat.eqb_spec c j); subst; cbn [andb]; bcase.
    + exists l2. split; [exact E2|]. eapply is_mat_ext; [|exact H2].
      intros r c Hr Hc. unfold lpart. destruct (Nat.eqb_spec r i); subst; cbn [andb]; bcase.
  - exists l'. split; [exact E|]. eapply is_mat_ext; [|exact H]. intros r c Hr Hc. bcase.
Qed.

Lemma lu_extract_u a n f l : is_mat a n n f -> is_mat l n n delta ->
  exists l', for_loop 0 (cols a) (fun i l =>
              for_loop i (cols a) (fun j l =>
                let! x := vget (data a) (j * rows a + i) in
                let! d := vset (data l) (j * rows a + i) x in
                Ret (mkMatrix (rows l) (cols l) d)) l) l = Ret l' /\ is_mat l' n n (upart f).
Proof.
  intros Ha Hl. destruct (is_mat_dim _ _ _ _ Ha) as [R C]. rewrite R, C.
  match goal with |- context [for_loop 0 n ?body _] => set (bd := body) end.
  destruct (for_loop_ind (fun i l => is_mat l n n (fun r c => if r <? i then upart f r c else delta r c))
    bd 0 n l) as (l' & E & H).
  - lia.
  - eapply is_mat_ext; [|exact Hl]. intros r c Hr Hc. bcase.
  - intros i l1 Hi H1. unfold bd.
    match goal with |- context [for_loop i n ?body _] => set (bd2 := body) end.
    destruct (for_loop_ind (fun j l => is_mat l n n (fun r c => if r <? i then upart f r c else
       if (r =? i) && ((i <=? c) && (c <? j)) then f r c else delta r c)) bd2 i n l1) as (l2 & E2 & H2).
    + lia.
    + eapply is_mat_ext; [|exact H1]. intros r c Hr Hc. bcase.
    + intros j l2 Hj H2. unfold bd2. rewrite (is_mat_vget _ _ _ _ i j Ha) by lia. cbn [bind].
      destruct (is_mat_dim _ _ _ _ H2) as [R2 C2].
      destruct (mset_spec l2 n n _ i j (f i j) H2) as (l3 & E3 & H3); [lia|lia|].
      unfold mset in E3. rewrite R2, C2 in E3.
      replace (i <? n) with true in E3 by (symmetry; apply Nat.ltb_lt; lia).
      replace (j <? n) with true in E3 by (symmetry; apply Nat.ltb_lt; lia).
      cbn [rassert bind] in E3. rewrite R2, C2. exists l3. split; [exact E3|].
      eapply is_mat_ext; [|exact H3]. intros r c Hr Hc. unfold fupd.
      destruct (Nat.eqb_spec r i); destruct (Nat.eqb_spec c j); subst; cbn [andb]; bcase.
    + exists l2. split; [exact E2|]. eapply is_mat_ext; [|exact H2].
      intros r c Hr Hc. unfold upart, delta. destruct (Nat.eqb_spec r i); subst; cbn [andb]; bcase.
  - exists l'. split; [exact E|]. eapply is_mat_ext; [|exact H]. intros r c Hr Hc. bcase.
Qed.

(** General form: any invariant of the pair (entries, permutation) that holds initially and is
    preserved by "exchange row i with the chosen pivot row k >= i, then eliminate column i" holds
    finally. *)
Lemma dec_lu_gen (Inv : nat -> (nat -> nat -> T) -> (nat -> nat) -> Prop) A n f :
  is_mat A n n f ->
  Inv 0 f (fun r => r) ->
  (forall i a s k, i <= k < n -> k = pick (fun r => a r i) i (n - S i) -> perm_on n s -> Inv i a s ->
     Inv (S i) (elimf i (swapf i k a)) (fun r => s (tswap i k r))) ->
  exists L U P a s, dec_lu A = Ret (Ok (mkLU L U P)) /\
    is_mat L n n (lpart a) /\ is_mat U n n (upart a) /\ is_mat P n n (perm_fun s) /\
    perm_on n s /\ Inv n a s.
Proof.
  intros HA H0 HS. destruct (is_mat_dim _ _ _ _ HA) as [R C]. unfold dec_lu. rewrite R, C, Nat.eqb_refl.
  cbn [rassert bind].
  destruct (mone_spec n) as (I & EI & HI). rewrite EI. cbn [bind].
  destruct (for_loop_ind (fun i (st : matrix T * matrix T) => exists a s, is_mat (fst st) n n a /\
     is_mat (snd st) n n (perm_fun s) /\ perm_on n s /\ Inv i a s) lu_step 0 n (A, I)) as ([a1 p1] & E & a & s & H1 & H2 & H3 & H4).
  - lia.
  - exists f, (fun r => r). cbn [fst snd]. split; [assumption|]. split; [|split; [split; auto | assumption]].
    exact HI.
  - intros i [b q] Hi (a & s & H1 & H2 & H3 & H4). cbn [fst snd] in *.
    destruct (lu_step_spec b q n a (perm_fun s) i H1 H2) as (b' & q' & E & H5 & H6); [lia|].
    pose proof (pick_range (fun r => a r i) i (n - S i)) as Hk.
    set (k := pick (fun r => a r i) i (n - S i)) in *.
    exists (b', q'). split; [exact E|]. exists (elimf i (swapf i k a)), (fun r => s (tswap i k r)).
    cbn [fst snd]. split; [assumption|]. split; [|split].
    + eapply is_mat_ext; [|exact H6]. intros r c Hr Hc. rewrite swapf_tswap. reflexivity.
    + apply perm_comp; [assumption|]. apply tswap_perm; lia.
    + apply HS; auto. lia.
  - rewrite E. cbn [bind fst snd] in *.
    destruct (lu_extract_l a1 n a I H1 HI) as (L & EL & HL).
    destruct (lu_extract_u a1 n a I H1 HI) as (U & EU & HU).
    rewrite EL. cbn [bind]. rewrite EU. cbn [bind].
    exists L, U, p1, a, s. conj_auto.
Qed.

Lemma dec_lu_nonsquare A : rows A <> cols A -> dec_lu A = Panic.
Proof. intros H. unfold dec_lu. apply Nat.eqb_neq in H. rewrite H. reflexivity. Qed.

Lemma lpart_unit n a : unit_lower n (lpart a).
Proof. intros i j Hi Hj. unfold lpart, delta. split; intros H; bcase. Qed.
Lemma upart_upper n a : upper n n (upart a).
Proof. intros i j Hi Hj H. unfold upart. bcase. Qed.

(** ** P A = L U + E *)
Context (F : FieldLaws O).
Let L := fl_ring O F.
Add Ring Tr : (rl_ring O L).

Definition lu_err (a : nat -> nat -> T) (r c : nat) : T :=
  if (c <? r) && eqb (a c c) zero then a r c else zero.

Definition lu_inv_state (n : nat) (f : nat -> nat -> T) (i : nat) (a : nat -> nat -> T) (s : nat -> nat) : Prop :=
  forall r c, r < n -> c < n ->
    f (s r) c = add (add (sumn i (fun l => mul (lpart a r l) (upart a l c)))
                         (if (i <=? r) && (i <=? c) then a r c else zero))
                    (if c <? i then lu_err a r c else zero).

Lemma lu_inv_init n f : lu_inv_state n f 0 f (fun r => r).
Proof. intros r c Hr Hc. simpl. ring. Qed.

Lemma lu_inv_swap n f i a s k : i <= k < n -> perm_on n s -> lu_inv_state n f i a s ->
  lu_inv_state n f i (swapf i k a) (fun r => s (tswap i k r)).
Proof.
  intros Hk Hs H r c Hr Hc.
  assert (Hin : i < n) by lia. assert (Hkn : k < n) by lia.
  pose proof (proj1 (tswap_perm n i k Hin Hkn) r Hr) as Ht.
  rewrite (H _ c Ht Hc). f_equal; [f_equal|].
  - apply sumn_ext. intros l Hl. unfold lpart, upart. rewrite !swapf_tswap.
    assert (E1 : tswap i k l = l) by (unfold tswap; bcase). rewrite E1.
    f_equal. destruct (Nat.eq_dec r i) as [->|]; [|destruct (Nat.eq_dec r k) as [->|]].
    + assert (E2 : tswap i k i = k) by (unfold tswap; bcase). rewrite E2. bcase.
    + assert (E2 : tswap i k k = i) by (unfold tswap; bcase). rewrite E2. bcase.
    + assert (E2 : tswap i k r = r) by (unfold tswap; bcase). rewrite E2. reflexivity.
  - rewrite swapf_tswap.
    assert (E : (i <=? tswap i k r) = (i <=? r)) by (unfold tswap; bcase). rewrite E. reflexivity.
  - destruct (Nat.ltb_spec c i); [|reflexivity]. unfold lu_err. rewrite !swapf_tswap.
    assert (E1 : tswap i k c = c) by (unfold tswap; bcase). rewrite E1.
    assert (E : (c <? tswap i k r) = (c <? r)) by (unfold tswap; bcase). rewrite E. reflexivity.
Qed.

Lemma lu_inv_elim n f i a s : i < n -> lu_inv_state n f i a s -> lu_inv_state n f (S i) (elimf i a) s.
Proof.
  intros Hi H r c Hr Hc. rewrite (H r c Hr Hc). simpl sumn.
  assert (Es : sumn i (fun l => mul (lpart (elimf i a) r l) (upart (elimf i a) l c)) =
               sumn i (fun l => mul (lpart a r l) (upart a l c))).
  { apply sumn_ext. intros l Hl. unfold lpart, upart, elimf. f_equal; bcase. }
  rewrite Es. clear Es. set (S0 := sumn i _).
  assert (Ee : forall c, c < i -> lu_err (elimf i a) r c = lu_err a r c).
  { intros c' Hc'. unfold lu_err, elimf. replace (c' <=? i) with true by (symmetry; apply Nat.leb_le; lia).
    replace (c' <? i) with true by (symmetry; apply Nat.ltb_lt; lia).
    destruct (r <=? i); reflexivity. }
  unfold lpart at 1, upart at 1.
  destruct (Nat.ltb_spec c i) as [Hci|Hci].
  - rewrite (proj2 (Nat.ltb_lt c (S i))) by lia. rewrite Ee by lia.
    replace (i <=? c) with false by (symmetry; apply Nat.leb_gt; lia).
    replace (S i <=? c) with false by (symmetry; apply Nat.leb_gt; lia).
    rewrite !andb_false_r. ring.
  - replace (i <=? c) with true by (symmetry; apply Nat.leb_le; lia). rewrite andb_true_r.
    destruct (Nat.ltb_spec i r) as [Hir|Hir].
    + replace (i <=? r) with true by (symmetry; apply Nat.leb_le; lia).
      destruct (Nat.eq_dec c i) as [->|Hne].
      * (* multiplier column *)
        rewrite (proj2 (Nat.ltb_lt i (S i))) by lia.
        replace (S i <=? i) with false by (symmetry; apply Nat.leb_gt; lia). rewrite andb_false_r.
        unfold lu_err. replace (i <? r) with true by (symmetry; apply Nat.ltb_lt; lia).
        assert (E1 : elimf i a r i = lu_fac a i r) by (unfold elimf; bcase).
        assert (E2 : elimf i a i i = a i i) by (unfold elimf; bcase).
        rewrite E1, E2. unfold lu_fac. cbn [andb].
        destruct (eqb (a i i) zero) eqn:Ez; cbn [negb].
        -- apply (fl_eq O F) in Ez. rewrite Ez. ring.
        -- assert (Hz : a i i <> zero) by (intro Hz; apply (fl_eq O F) in Hz; congruence).
           rewrite (fl_div O F _ _ Hz). ring.
      * replace (c <? S i) with false by (symmetry; apply Nat.ltb_ge; lia).
        replace (S i <=? c) with true by (symmetry; apply Nat.leb_le; lia).
        replace (S i <=? r) with true by (symmetry; apply Nat.leb_le; lia). cbn [andb].
        assert (E1 : elimf i a r i = lu_fac a i r) by (unfold elimf; bcase).
        assert (E2 : elimf i a i c = a i c) by (unfold elimf; bcase).
        assert (E3 : elimf i a r c = sub (a r c) (mul (lu_fac a i r) (a i c))) by (unfold elimf; bcase).
        rewrite E1, E2, E3. ring.
    + replace (S i <=? r) with false by (symmetry; apply Nat.leb_gt; lia). cbn [andb].
      assert (E2 : elimf i a i c = a i c) by (unfold elimf; bcase). rewrite E2. unfold delta.
      assert (Z : (if c <? S i then lu_err (elimf i a) r c else zero) = zero).
      { destruct (Nat.ltb_spec c (S i)); [|reflexivity]. unfold lu_err.
        replace (c <? r) with false by (symmetry; apply Nat.ltb_ge; lia). reflexivity. }
      rewrite Z. destruct (Nat.eqb_spec r i) as [->|Hri].
      * rewrite Nat.leb_refl. ring.
      * replace (i <=? r) with false by (symmetry; apply Nat.leb_gt; lia). ring.
Qed.

Lemma perm_mulf n s (f : nat -> nat -> T) r c : perm_on n s -> r < n ->
  mulf n (perm_fun s) f r c = f (s r) c.
Proof.
  intros [H _] Hr. unfold mulf, perm_fun.
  rewrite (sumn_single L n (s r)).
  - rewrite Nat.eqb_refl. ring.
  - auto.
  - intros l Hl Hne. destruct (Nat.eqb_spec (s r) l); [congruence|]. ring.
Qed.

(** Unconditional: P A = L U + E where E(r,c) = L(r,c) below the diagonal of columns whose pivot is zero. *)
Lemma dec_lu_spec A n f : is_mat A n n f ->
  exists Lm U P a s, dec_lu A = Ret (Ok (mkLU Lm U P)) /\
    is_mat Lm n n (lpart a) /\ is_mat U n n (upart a) /\ is_mat P n n (perm_fun s) /\ perm_on n s /\
    forall r c, r < n -> c < n -> f (s r) c = add (mulf n (lpart a) (upart a) r c) (lu_err a r c).
Proof.
  intros HA. destruct (dec_lu_gen (lu_inv_state n f) A n f HA (lu_inv_init n f)) as (Lm & U & P & a & s & E & HL & HU & HP & Hs & HI).
  - intros i a s k Hk _ Hs HI. apply lu_inv_elim; [lia|]. apply lu_inv_swap; assumption.
  - exists Lm, U, P, a, s. conj_auto.
    intros r c Hr Hc. rewrite (HI r c Hr Hc).
    replace (n <=? r) with false by (symmetry; apply Nat.leb_gt; lia).
    replace (c <? n) with true by (symmetry; apply Nat.ltb_lt; lia). cbn [andb]. unfold mulf. ring.
Qed.

(** The chosen entry is a maximum. *)
Lemma pick_max (OL : OrdLaws O) g i c : forall r, i <= r <= i + c -> ltb (g (pick g i c)) (g r) = false.
Proof.
  induction c as [|c IH]; intros r Hr; simpl.
  - replace r with i by lia. apply (ol_irrefl O OL).
  - destruct (ltb (g (pick g i c)) (g (i + 1 + c))) eqn:E.
    + destruct (Nat.eq_dec r (i + 1 + c)) as [->|]; [apply (ol_irrefl O OL)|].
      destruct (ltb (g (i + 1 + c)) (g r)) eqn:E2; [|reflexivity].
      pose proof (ol_trans O OL _ _ _ E E2) as E3. rewrite IH in E3 by lia. discriminate.
    + destruct (Nat.eq_dec r (i + 1 + c)) as [->|]; [assumption|]. apply IH. lia.
Qed.

Lemma pick_first (g : nat -> T) i c : (forall r, i < r <= i + c -> ltb (g i) (g r) = false) -> pick g i c = i.
Proof.
  induction c as [|c IH]; intros H; simpl; [reflexivity|]. rewrite IH by (intros; apply H; lia).
  rewrite H by lia. reflexivity.
Qed.

End LU.
