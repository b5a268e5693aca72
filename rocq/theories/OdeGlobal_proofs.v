(** From the local error to the error of a whole fixed-step run. *)
From Coq Require Import Arith Lia List Bool Reals Lra Psatz.
From Coquelicot Require Import Coquelicot.
From Verif Require Import Outcome Scalar RealOps Matrix_model Vector_model Matrix_spec Optim_spec Matrix_proofs Vector_proofs Sums DecompProps_proofs
  Ode_model Ode_spec Ode_proofs OdeOrder_proofs OdeConseq_proofs OdeSolve_proofs OdeMulti_proofs BigO_proofs OdeConv_spec OdeConv_proofs OdeLocal_proofs.
Import ListNotations.
Local Open Scope R_scope.

Lemma col_exists m (g : nat -> R) : exists v, is_col v m g.
Proof.
  exists (mkMatrix m 1 (map g (seq 0 m))).
  eapply is_mat_ext; [|exact (is_col_list 0 m (map g (seq 0 m)) ltac:(rewrite map_length, seq_length; reflexivity))].
  intros i j Hi Hj. cbv beta. rewrite (nth_indep _ 0 (g 0%nat)) by (rewrite map_length, seq_length; exact Hi). rewrite map_nth, seq_nth by exact Hi. reflexivity.
Qed.
Lemma col_unique (v : vector R) m g g' i : is_col v m g -> is_col v m g' -> (i < m)%nat -> g i = g' i.
Proof. intros H1 H2 Hi. pose proof (col_get v m g i H1 Hi) as E1. rewrite (col_get v m g' i H2 Hi) in E1. injection E1 as ->. reflexivity. Qed.

Lemma within_nonneg m d r : (0 < m)%nat -> within m d r -> 0 <= r.
Proof. intros Hm H. eapply Rle_trans; [apply Rabs_pos|exact (H 0%nat Hm)]. Qed.
Lemma lip_abs m F t0 t1 y rho L : lipschitz_near m F t0 t1 y rho L -> lipschitz_near m F t0 t1 y rho (Rabs L).
Proof.
  intros H t x x' r Ht Hx Hx' Hr i Hi. eapply Rle_trans; [exact (H t x x' r Ht Hx Hx' Hr i Hi)|].
  apply Rmult_le_compat_r; [apply (within_nonneg m (fun i => x i - x' i) r); [lia|exact Hr]|apply RRle_abs].
Qed.

(** ** The order conditions as equations *)
Lemma order_alpha a b c p : row_sums a b c -> has_order a b c p -> (3 <= p)%nat ->
  sumn (length b) (fun j => b_of b j * alpha (a_of a) (c_of c) j) = 0.
Proof.
  intros Hr Ho Hp. pose proof (quad_cond a b c p 2 Hr Ho ltac:(lia)) as Q2.
  pose proof (Ho (Node [Node [Node []]]) ltac:(cbn; lia)) as Q.
  rewrite (sumR_ext _ _ (fun j => b_of b j * sumn j (fun l => a_of a j l * c_of c l))) in Q.
  2:{ intros j Hj. cbn [tphi fold_right one mul R_ops]. rewrite Rmult_1_r. f_equal. apply sumR_ext. intros l Hl. rewrite Rmult_1_r. f_equal.
      rewrite (Hr l) by lia. apply sumR_ext. intros q Hq. ring. }
  unfold alpha. rewrite (sumR_ext _ _ (fun j => b_of b j * sumn j (fun l => a_of a j l * c_of c l) + - (1 / 2) * (b_of b j * c_of c j ^ 2))) by (intros; field).
  rewrite sumR_add, sumR_mul_l, Q2, Q. cbn. field.
Qed.
Lemma order_4 a b c p : row_sums a b c -> has_order a b c p -> (4 <= p)%nat ->
  sumn (length b) (fun j => b_of b j * (c_of c j * alpha (a_of a) (c_of c) j)) = 0 /\
  sumn (length b) (fun j => b_of b j * beta (a_of a) (c_of c) j) = 0 /\
  sumn (length b) (fun j => b_of b j * gam (a_of a) (c_of c) j) = 0.
Proof.
  intros Hr Ho Hp. pose proof (quad_cond a b c p 3 Hr Ho ltac:(lia)) as Q3.
  assert (LC : forall l, (l < length b)%nat -> sumn l (fun q => a_of a l q * 1) = c_of c l).
  { intros l Hl. rewrite (Hr l Hl). apply sumR_ext. intros; ring. }
  pose proof (Ho (Node [Node []; Node [Node []]]) ltac:(cbn; lia)) as Qa.
  rewrite (sumR_ext _ _ (fun j => b_of b j * (c_of c j * sumn j (fun l => a_of a j l * c_of c l)))) in Qa.
  2:{ intros j Hj. cbn [tphi fold_right one mul R_ops]. rewrite (LC j Hj). rewrite Rmult_1_r. do 2 f_equal.
      apply sumR_ext. intros l Hl. rewrite (LC l) by lia. ring. }
  pose proof (Ho (Node [Node [Node []; Node []]]) ltac:(cbn; lia)) as Qb.
  rewrite (sumR_ext _ _ (fun j => b_of b j * sumn j (fun l => a_of a j l * c_of c l ^ 2))) in Qb.
  2:{ intros j Hj. cbn [tphi fold_right one mul R_ops]. rewrite Rmult_1_r. f_equal. apply sumR_ext. intros l Hl. rewrite (LC l) by lia. ring. }
  pose proof (Ho (Node [Node [Node [Node []]]]) ltac:(cbn; lia)) as Qc.
  rewrite (sumR_ext _ _ (fun j => b_of b j * sumn j (fun l => a_of a j l * sumn l (fun q => a_of a l q * c_of c q)))) in Qc.
  2:{ intros j Hj. cbn [tphi fold_right one mul R_ops]. rewrite Rmult_1_r. f_equal. apply sumR_ext. intros l Hl. rewrite Rmult_1_r. f_equal.
      apply sumR_ext. intros q Hq. rewrite (LC q) by lia. ring. }
  split; [|split].
  - unfold alpha. rewrite (sumR_ext _ _ (fun j => b_of b j * (c_of c j * sumn j (fun l => a_of a j l * c_of c l)) + - (1 / 2) * (b_of b j * c_of c j ^ 3))) by (intros; field).
    rewrite sumR_add, sumR_mul_l, Q3, Qa. cbn. field.
  - unfold beta. rewrite (sumR_ext _ _ (fun j => 1 / 2 * (b_of b j * sumn j (fun l => a_of a j l * c_of c l ^ 2)) + - (1 / 6) * (b_of b j * c_of c j ^ 3))) by (intros; field).
    rewrite sumR_add, !sumR_mul_l, Q3, Qb. cbn. field.
  - unfold gam, alpha. rewrite (sumR_ext _ _ (fun j => b_of b j * sumn j (fun l => a_of a j l * sumn l (fun q => a_of a l q * c_of c q))
       + - (1 / 2) * (b_of b j * sumn j (fun l => a_of a j l * c_of c l ^ 2)))).
    2:{ intros j Hj. rewrite (sumR_ext j _ (fun l => a_of a j l * sumn l (fun q => a_of a l q * c_of c q) + - (1 / 2) * (a_of a j l * c_of c l ^ 2))) by (intros; field).
        rewrite sumR_add, sumR_mul_l. ring. }
    rewrite sumR_add, sumR_mul_l, Qb, Qc. cbn. field.
Qed.

Lemma order_5 a b c p : row_sums a b c -> has_order a b c p -> (5 <= p)%nat ->
  let A := a_of a in let C := c_of c in let S w := sumn (length b) (fun j => b_of b j * w j) = 0 in
  S (fun j => C j ^ 2 * alpha A C j) /\ S (fun j => C j * beta A C j) /\ S (fun j => C j * gam A C j) /\ S (delt A C) /\
  S (aca A C) /\ S (abe A C) /\ S (aga A C) /\ S (fun j => alpha A C j ^ 2).
Proof.
  intros Hr Ho Hp A C S. set (B := b_of b). set (s := length b).
  assert (LC : forall l, (l < s)%nat -> sumn l (fun q => A l q * 1) = C l).
  { intros l Hl. unfold C. rewrite (Hr l Hl). apply sumR_ext. intros; unfold A; ring. }
  set (ac := fun j => sumn j (fun l => A j l * C l)). set (ac2 := fun j => sumn j (fun l => A j l * C l ^ 2)).
  set (ac3 := fun j => sumn j (fun l => A j l * C l ^ 3)). set (aac := fun j => sumn j (fun l => A j l * ac l)).
  set (acac := fun j => sumn j (fun l => A j l * (C l * ac l))). set (aac2 := fun j => sumn j (fun l => A j l * ac2 l)).
  set (aaac := fun j => sumn j (fun l => A j l * aac l)).
  assert (P1 : forall j, tphi A (Node []) j = 1) by reflexivity.
  assert (PS : forall n (w w' : nat -> R) j, (j <= n)%nat -> (forall l, (l < n)%nat -> w l = w' l) -> sumn j (fun l => A j l * w l) = sumn j (fun l => A j l * w' l)).
  { intros n w w' j Hj E. apply sumR_ext. intros l Hl. now rewrite E by lia. }
  assert (PC : forall j, (j < s)%nat -> sumn j (fun l => A j l * tphi A (Node []) l) = C j) by (intros j Hj; apply (LC j Hj)).
  assert (Pac : forall j, (j < s)%nat -> sumn j (fun l => A j l * tphi A (Node [Node []]) l) = ac j).
  { intros j Hj. apply (PS s); [lia|]. intros l Hl. change (sumn l (fun q => A l q * tphi A (Node []) q) * 1 = C l). rewrite PC by exact Hl. ring. }
  assert (Pac2 : forall j, (j < s)%nat -> sumn j (fun l => A j l * tphi A (Node [Node []; Node []]) l) = ac2 j).
  { intros j Hj. apply (PS s); [lia|]. intros l Hl. change (sumn l (fun q => A l q * tphi A (Node []) q) * (sumn l (fun q => A l q * tphi A (Node []) q) * 1) = C l ^ 2).
    rewrite PC by exact Hl. ring. }
  assert (Pac3 : forall j, (j < s)%nat -> sumn j (fun l => A j l * tphi A (Node [Node []; Node []; Node []]) l) = ac3 j).
  { intros j Hj. apply (PS s); [lia|]. intros l Hl.
    change (sumn l (fun q => A l q * tphi A (Node []) q) * (sumn l (fun q => A l q * tphi A (Node []) q) * (sumn l (fun q => A l q * tphi A (Node []) q) * 1)) = C l ^ 3).
    rewrite PC by exact Hl. ring. }
  assert (Paac : forall j, (j < s)%nat -> sumn j (fun l => A j l * tphi A (Node [Node [Node []]]) l) = aac j).
  { intros j Hj. apply (PS s); [lia|]. intros l Hl. change (sumn l (fun q => A l q * tphi A (Node [Node []]) q) * 1 = ac l). rewrite Pac by exact Hl. ring. }
  assert (Pacac : forall j, (j < s)%nat -> sumn j (fun l => A j l * tphi A (Node [Node []; Node [Node []]]) l) = acac j).
  { intros j Hj. apply (PS s); [lia|]. intros l Hl.
    change (sumn l (fun q => A l q * tphi A (Node []) q) * (sumn l (fun q => A l q * tphi A (Node [Node []]) q) * 1) = C l * ac l). rewrite PC, Pac by exact Hl. ring. }
  assert (Paac2 : forall j, (j < s)%nat -> sumn j (fun l => A j l * tphi A (Node [Node [Node []; Node []]]) l) = aac2 j).
  { intros j Hj. apply (PS s); [lia|]. intros l Hl. change (sumn l (fun q => A l q * tphi A (Node [Node []; Node []]) q) * 1 = ac2 l). rewrite Pac2 by exact Hl. ring. }
  assert (Paaac : forall j, (j < s)%nat -> sumn j (fun l => A j l * tphi A (Node [Node [Node [Node []]]]) l) = aaac j).
  { intros j Hj. apply (PS s); [lia|]. intros l Hl. change (sumn l (fun q => A l q * tphi A (Node [Node [Node []]]) q) * 1 = aac l). rewrite Paac by exact Hl. ring. }
  assert (TO : forall t w (v : nat), (torder t <= 5)%nat -> tgamma t = v -> (forall j, (j < s)%nat -> tphi A t j = w j) -> sumn s (fun j => B j * w j) = 1 / INR v).
  { intros t w v Ht <- E. rewrite <- (Ho t ltac:(lia)). apply sumR_ext. intros j Hj. rewrite <- E by exact Hj. reflexivity. }
  pose proof (quad_cond a b c p 4 Hr Ho ltac:(lia)) as Q1. fold s in Q1. change (sumn s (fun j => B j * C j ^ 4) = 1 / INR 5) in Q1.
  pose proof (TO (Node [Node []; Node []; Node [Node []]]) (fun j => C j ^ 2 * ac j) 10%nat ltac:(cbn; lia) eq_refl) as Q2.
  pose proof (TO (Node [Node [Node []]; Node [Node []]]) (fun j => ac j ^ 2) 20%nat ltac:(cbn; lia) eq_refl) as Q3.
  pose proof (TO (Node [Node []; Node [Node []; Node []]]) (fun j => C j * ac2 j) 15%nat ltac:(cbn; lia) eq_refl) as Q4.
  pose proof (TO (Node [Node []; Node [Node [Node []]]]) (fun j => C j * aac j) 30%nat ltac:(cbn; lia) eq_refl) as Q5.
  pose proof (TO (Node [Node [Node []; Node []; Node []]]) ac3 20%nat ltac:(cbn; lia) eq_refl) as Q6.
  pose proof (TO (Node [Node [Node []; Node [Node []]]]) acac 40%nat ltac:(cbn; lia) eq_refl) as Q7.
  pose proof (TO (Node [Node [Node [Node []; Node []]]]) aac2 60%nat ltac:(cbn; lia) eq_refl) as Q8.
  pose proof (TO (Node [Node [Node [Node [Node []]]]]) aaac 120%nat ltac:(cbn; lia) eq_refl) as Q9.
  assert (FR : forall ts j, tphi A (Node ts) j = fold_right (fun t q => sumn j (fun l => A j l * tphi A t l) * q) 1 ts) by reflexivity.
  assert (Q2' := Q2 ltac:(intros j Hj; rewrite FR; cbn [fold_right]; rewrite PC, Pac by exact Hj; ring)).
  assert (Q3' := Q3 ltac:(intros j Hj; rewrite FR; cbn [fold_right]; rewrite Pac by exact Hj; ring)).
  assert (Q4' := Q4 ltac:(intros j Hj; rewrite FR; cbn [fold_right]; rewrite PC, Pac2 by exact Hj; ring)).
  assert (Q5' := Q5 ltac:(intros j Hj; rewrite FR; cbn [fold_right]; rewrite PC, Paac by exact Hj; ring)).
  assert (Q6' := Q6 ltac:(intros j Hj; rewrite FR; cbn [fold_right]; rewrite Pac3 by exact Hj; ring)).
  assert (Q7' := Q7 ltac:(intros j Hj; rewrite FR; cbn [fold_right]; rewrite Pacac by exact Hj; ring)).
  assert (Q8' := Q8 ltac:(intros j Hj; rewrite FR; cbn [fold_right]; rewrite Paac2 by exact Hj; ring)).
  assert (Q9' := Q9 ltac:(intros j Hj; rewrite FR; cbn [fold_right]; rewrite Paaac by exact Hj; ring)).
  clear Q2 Q3 Q4 Q5 Q6 Q7 Q8 Q9 TO Paaac Paac2 Pacac Paac Pac3 Pac2 Pac PC P1 LC FR.
  rewrite INR_IZR_INZ in *. cbn [Z.of_nat Pos.of_succ_nat Pos.succ] in *.
  assert (Ea : forall j, alpha A C j = ac j - C j ^ 2 / 2) by reflexivity.
  assert (Eb : forall j, beta A C j = 1 / 2 * ac2 j - C j ^ 3 / 6) by (intros; unfold beta, ac2; field).
  assert (SL : forall k j w1 w2 x, sumn j (fun l => A k l * (w1 l + x * w2 l)) = sumn j (fun l => A k l * w1 l) + x * sumn j (fun l => A k l * w2 l)).
  { intros k j w1 w2 x. rewrite <- sumR_mul_l, <- sumR_add. apply sumR_ext. intros; ring. }
  assert (Eg : forall j, gam A C j = aac j - 1 / 2 * ac2 j).
  { intros j. unfold gam. rewrite (PS j (alpha A C) (fun l => ac l + - (1 / 2) * C l ^ 2) j (le_n _)) by (intros; rewrite Ea; field). rewrite SL. fold (aac j) (ac2 j). ring. }
  assert (Eca : forall j, aca A C j = acac j - 1 / 2 * ac3 j).
  { intros j. unfold aca. rewrite (PS j (fun l => C l * alpha A C l) (fun l => C l * ac l + - (1 / 2) * C l ^ 3) j (le_n _)) by (intros; rewrite Ea; field).
    rewrite SL. fold (acac j) (ac3 j). ring. }
  assert (Ebe : forall j, abe A C j = 1 / 2 * aac2 j - 1 / 6 * ac3 j).
  { intros j. unfold abe. rewrite (PS j (beta A C) (fun l => 1 / 2 * ac2 l + - (1 / 6) * C l ^ 3) j (le_n _)) by (intros; rewrite Eb; field).
    rewrite SL. fold (ac3 j). rewrite (sumR_ext j _ (fun l => 1 / 2 * (A j l * ac2 l))) by (intros; ring). rewrite sumR_mul_l. fold (aac2 j). ring. }
  assert (Ega : forall j, aga A C j = aaac j - 1 / 2 * aac2 j).
  { intros j. unfold aga. rewrite (PS j (gam A C) (fun l => aac l + - (1 / 2) * ac2 l) j (le_n _)) by (intros; rewrite Eg; ring). rewrite SL. fold (aaac j) (aac2 j). ring. }
  assert (Ed : forall j, delt A C j = 1 / 6 * ac3 j - C j ^ 4 / 24) by (intros; unfold delt, ac3; field).
  assert (LIN2 : forall w u v x y, (forall j, w j = x * u j + y * v j) -> sumn s (fun j => B j * w j) = x * sumn s (fun j => B j * u j) + y * sumn s (fun j => B j * v j)).
  { intros w u v x y E. rewrite <- !sumR_mul_l, <- sumR_add. apply sumR_ext. intros. rewrite E. ring. }
  unfold S. fold s B.
  repeat split.
  - rewrite (LIN2 _ (fun j => C j ^ 2 * ac j) (fun j => C j ^ 4) 1 (- (1 / 2))) by (intros; rewrite Ea; field). rewrite Q2', Q1. field.
  - rewrite (LIN2 _ (fun j => C j * ac2 j) (fun j => C j ^ 4) (1 / 2) (- (1 / 6))) by (intros; rewrite Eb; field). rewrite Q4', Q1. field.
  - rewrite (LIN2 _ (fun j => C j * aac j) (fun j => C j * ac2 j) 1 (- (1 / 2))) by (intros; rewrite Eg; field). rewrite Q5', Q4'. field.
  - rewrite (LIN2 _ ac3 (fun j => C j ^ 4) (1 / 6) (- (1 / 24))) by (intros; rewrite Ed; field). rewrite Q6', Q1. field.
  - rewrite (LIN2 _ acac ac3 1 (- (1 / 2))) by (intros; rewrite Eca; field). rewrite Q7', Q6'. field.
  - rewrite (LIN2 _ aac2 ac3 (1 / 2) (- (1 / 6))) by (intros; rewrite Ebe; field). rewrite Q8', Q6'. field.
  - rewrite (LIN2 _ aaac aac2 1 (- (1 / 2))) by (intros; rewrite Ega; field). rewrite Q9', Q8'. field.
  - rewrite (LIN2 _ (fun j => ac j ^ 2 + - 1 * (C j ^ 2 * ac j)) (fun j => C j ^ 4) 1 (1 / 4)) by (intros; rewrite Ea; field).
    rewrite (LIN2 (fun j => ac j ^ 2 + - 1 * (C j ^ 2 * ac j)) (fun j => ac j ^ 2) (fun j => C j ^ 2 * ac j) 1 (- 1)) by (intros; ring). rewrite Q3', Q2', Q1. field.
Qed.

(** ** The run *)
Section Global.
Context (B : tableau R) (f : R -> vector R -> outcome (vector R)) (m p : nat) (F : R -> (nat -> R) -> nat -> R) (t0 t1 : R) (Y : nat -> nat -> R -> R).
Context (rho L M : R).
Local Notation s := (length (tb B)).
Local Notation a := (a_of (ta B)).
Local Notation b := (b_of (tb B)).
Local Notation c := (c_of (tc B)).
Context (Hs : (1 <= s)%nat) (Hok : tableau_ok (ta B) (tb B) (tc B)).
Context (Hrho : 0 < rho) (HL0 : 0 <= L) (HM0 : 0 <= M).
Context (HL : lipschitz_near m F t0 t1 (Y 0%nat) rho L).
Context (Hf : forall t, computes (f t) m m (F t)).
Context (Hp : (1 <= p)%nat).
Context (HF : forall i t, (i < m)%nat -> t0 <= t <= t1 -> Y 1%nat i t = F t (fun l => Y 0%nat l t) i).
Context (HD : forall i t, (i < m)%nat -> t0 <= t <= t1 -> is_derive (Y 0%nat i) t (Y 1%nat i t)).
Context (HB : forall i t, (i < m)%nat -> t0 <= t <= t1 -> Rabs (Y 1%nat i t) <= M).
Context (Hc : forall j, (j < s)%nat -> 0 <= c j <= 1).
Context (Ht : t0 <= t1).
Local Notation H0 := (hmax s a rho L M).
Context (Hloc : forall i, (i < m)%nat ->
  bigO (adm m s a c F t0 t1 Y rho L M) (fun x : sit => snd (fst x)) (S p) (local s b Y i)).

Lemma f_total : rhs_total f m.
Proof. intros t x g Hx. destruct (Hf t x g Hx) as (v & E & Hv). exists v, (F t g). auto. Qed.

Lemma step_stg t x g h : is_col x m g -> exists r K, do_step B f t x h = Ret r /\ stg m s a c F t g h K /\
  is_col r m (step_of s b g h K).
Proof.
  intros Hx. destruct (do_step_spec B f m t x g h Hs Hok Hx f_total) as (r & K & E & [HK0 HK] & Hr).
  exists r, K. split; [exact E|]. split; [|exact Hr]. intros j Hj. destruct j as [|j].
  - exists g. split; [intros i Hi; unfold xst; cbn; ring|]. intros i Hi. destruct HK0 as (k0 & E0 & H0).
    destruct (Hf t x g Hx) as (v & E' & Hv). rewrite E0 in E'. injection E' as <-.
    replace (t + c 0%nat * h) with t by (cbn; ring). exact (col_unique _ _ _ _ i H0 Hv Hi).
  - destruct (HK (S j) ltac:(lia)) as (xj & kj & Hxj & E1 & Hk). exists (xst a g h K (S j)). split; [reflexivity|]. intros i Hi.
    destruct (Hf (t + c (S j) * h) xj _ Hxj) as (v & E' & Hv). change (f (t + c (S j) * h) xj = Ret kj) in E1. rewrite E1 in E'. injection E' as <-. exact (col_unique _ _ _ _ i Hk Hv Hi).
Qed.

Lemma grid_between (tv : list R) N : (forall i, (i < N)%nat -> 0 < nth (S i) tv 0 - nth i tv 0) -> forall i j, (i <= j <= N)%nat -> nth i tv 0 <= nth j tv 0.
Proof.
  intros H i j. induction j as [|j IH]; intros Hj; [replace i with 0%nat by lia; lra|]. destruct (Nat.eq_dec i (S j)) as [->|]; [lra|]. specialize (H j ltac:(lia)). specialize (IH ltac:(lia)). lra.
Qed.
Lemma grid_error : accurate_on_grids p B f m t0 t1 (Y 0%nat).
Proof.
  assert (Hode : forall i t, (i < m)%nat -> t0 <= t <= t1 -> is_derive (Y 0%nat i) t (F t (fun l => Y 0%nat l t) i)).
  { intros i t Hi Hti. rewrite <- HF by assumption. now apply HD. }
  assert (HyM : forall i t, (i < m)%nat -> t0 <= t <= t1 -> Rabs (F t (fun l => Y 0%nat l t) i) <= M).
  { intros i t Hi Hti. rewrite <- HF by assumption. now apply HB. }
  destruct (step_stable m s a b c F t0 t1 (Y 0%nat) rho L M Hrho HL0 HM0 HL Hode HyM Hc) as (Lam & HLam & Stab).
  assert (Hh1 : forall x : sit, adm m s a c F t0 t1 Y rho L M x -> 0 < snd (fst x) <= 1).
  { intros x (_ & Hx & _). pose proof (hmax_pos s a rho L M Hrho HL0 HM0). cbn in Hx. lra. }
  destruct (O_unif _ _ Hh1 (S p) m (fun i => local s b Y i) Hloc) as (C0 & HC0 & Loc).
  set (T := t1 - t0). set (E := exp (Lam * T)). assert (HE : 0 < E) by apply exp_pos.
  assert (HT : 0 <= T) by (unfold T; lra).
  set (C := E * (1 + C0 * T)). assert (HC : 0 < C) by (unfold C; assert (0 <= C0 * T) by nra; nra).
  pose proof (hmax_pos s a rho L M Hrho HL0 HM0) as [HP1 HP2].
  exists C, (Rmin H0 (rho / 2 / (2 * C))).
  assert (HQ : 0 < rho / 2 / (2 * C)) by (apply Rdiv_lt_0_compat; lra).
  split; [apply Rmin_glb_lt; assumption|].
  intros h delta N tv xv g0 [Hh HhH] [Hd HdH] L1 L2 Hx0 HxN Hst Hinit Hg0 Hfol.
  pose proof (grid_between tv N (fun i Hi => proj1 (Hst i Hi))) as Hord.
  assert (Hin : forall i, (i <= N)%nat -> t0 <= nth i tv 0 <= t1).
  { intros i Hi. pose proof (Hord 0%nat i ltac:(lia)). pose proof (Hord i N ltac:(lia)). lra. }
  assert (HhA : h <= H0) by (eapply Rle_trans; [exact HhH|apply Rmin_l]).
  assert (HhB : C * h <= rho / 4).
  { assert (Q : h <= rho / 2 / (2 * C)) by (eapply Rle_trans; [exact HhH|apply Rmin_r]).
    apply (Rmult_le_compat_l C) in Q; [|lra]. replace (C * (rho / 2 / (2 * C))) with (rho / 4) in Q by (field; lra). exact Q. }
  assert (HdB : C * delta <= rho / 4).
  { assert (Q : delta <= rho / 2 / (2 * C)) by (eapply Rle_trans; [exact HdH|apply Rmin_r]).
    apply (Rmult_le_compat_l C) in Q; [|lra]. replace (C * (rho / 2 / (2 * C))) with (rho / 4) in Q by (field; lra). exact Q. }
  assert (Hpow : h ^ p <= h).
  { destruct p as [|q]; [lia|]. cbn [pow]. rewrite <- (Rmult_1_r h) at 3. apply Rmult_le_compat_l; [lra|]. rewrite <- (pow1 q). apply pow_incr. lra. }
  assert (Hpow0 : 0 <= h ^ p) by (apply pow_le; lra).
  assert (Htube : C * (delta + h ^ p) <= rho / 2) by nra.
  assert (Main : forall i, (i <= N)%nat -> exists g, is_col (nth i xv (vzero 0)) m g /\
    within m (fun l => g l - Y 0%nat l (nth i tv 0)) (exp (Lam * (nth i tv 0 - t0)) * (delta + C0 * h ^ p * (nth i tv 0 - t0)))).
  { induction i as [|i IH]; intros Hi.
    - exists g0. rewrite Hx0. split; [exact Hinit|]. replace (t0 - t0) with 0 by ring. rewrite !Rmult_0_r, exp_0, Rplus_0_r, Rmult_1_l. exact Hg0.
    - destruct IH as (g & Hgc & Hgw); [lia|]. pose proof (Hfol i ltac:(lia)) as FS.
      set (ti := nth i tv 0) in *. set (tn := nth (S i) tv 0) in *. set (w := tn - ti) in *.
      assert (Tin : t0 <= ti <= t1) by (apply Hin; lia).
      assert (Tnn : t0 <= tn <= t1) by (apply Hin; lia).
      assert (Wr : 0 < w <= h) by (apply Hst; lia).
      assert (Eb : exp (Lam * (ti - t0)) <= E).
      { unfold E. destruct (Rle_lt_or_eq_dec (Lam * (ti - t0)) (Lam * T)) as [Q|Q]; [unfold T; nra|left; now apply exp_increasing|rewrite Q; lra]. }
      assert (Cp : 0 <= C0 * h ^ p) by nra.
      assert (Bi : exp (Lam * (ti - t0)) * (delta + C0 * h ^ p * (ti - t0)) <= C * (delta + h ^ p)).
      { assert (X1 : 0 <= delta + C0 * h ^ p * (ti - t0)) by (assert (0 <= C0 * h ^ p * (ti - t0)) by (apply Rmult_le_pos; lra); lra).
        assert (X2 : delta + C0 * h ^ p * (ti - t0) <= (1 + C0 * T) * (delta + h ^ p)).
        { assert (C0 * h ^ p * (ti - t0) <= C0 * h ^ p * T) by (apply Rmult_le_compat_l; [exact Cp|unfold T; lra]). assert (0 <= C0 * T) by nra. nra. }
        unfold C. rewrite (Rmult_assoc E). apply Rmult_le_compat; [left; apply exp_pos|exact X1|exact Eb|exact X2]. }
      set (e := exp (Lam * (ti - t0)) * (delta + C0 * h ^ p * (ti - t0))) in *.
      assert (e0 : 0 <= e).
      { unfold e. apply Rmult_le_pos; [left; apply exp_pos|]. assert (0 <= C0 * h ^ p * (ti - t0)) by (apply Rmult_le_pos; lra). lra. }
      destruct (step_stg ti _ g w Hgc) as (r & K & E1 & HK & Hr).
      assert (r = nth (S i) xv (vzero 0)) by (rewrite FS in E1; injection E1 as ->; reflexivity). subst r.
      destruct (col_exists m (fun l => Y 0%nat l ti)) as (vy & Hvy).
      destruct (step_stg ti vy _ w Hvy) as (r' & K' & _ & HK' & _).
      eexists. split; [exact Hr|].
      assert (Z0 : within m (fun l => Y 0%nat l ti - Y 0%nat l ti) (rho / 2)) by (intros l Hl; cbv beta; rewrite Rminus_diag_eq by reflexivity; rewrite Rabs_R0; lra).
      assert (W0 : within m (fun l => g l - Y 0%nat l ti) (rho / 2)) by (intros l Hl; eapply Rle_trans; [exact (Hgw l Hl)|lra]).
      pose proof (Stab ti w g (fun l => Y 0%nat l ti) K K' e ltac:(lra) ltac:(lra) ltac:(unfold w; lra) e0 W0 Z0 HK HK' Hgw) as S1.
      assert (Ad : adm m s a c F t0 t1 Y rho L M (ti, w, K')).
      { unfold adm. cbn. split; [lra|]. split; [lra|]. split; [unfold w; lra|exact HK']. }
      intros l Hl. cbv beta. pose proof (S1 l Hl) as S2. cbv beta in S2. pose proof (Loc _ Ad l Hl) as L3. unfold local in L3. cbn [fst snd] in L3.
      replace (ti + w) with tn in L3 by (unfold w; ring).
      replace (step_of s b g w K l - Y 0%nat l tn) with ((step_of s b g w K l - step_of s b (fun l => Y 0%nat l ti) w K' l)
         + (step_of s b (fun l => Y 0%nat l ti) w K' l - Y 0%nat l tn)) by ring.
      eapply Rle_trans; [apply Rabs_triang|].
      assert (Lw : C0 * w ^ S p <= C0 * h ^ p * w).
      { cbn [pow]. rewrite (Rmult_comm w), <- Rmult_assoc. apply Rmult_le_compat_r; [lra|]. apply Rmult_le_compat_l; [exact HC0|]. apply pow_incr. lra. }
      assert (Ex : (1 + Lam * w) * exp (Lam * (ti - t0)) <= exp (Lam * (tn - t0))).
      { replace (Lam * (tn - t0)) with (Lam * w + Lam * (ti - t0)) by (unfold w; ring). rewrite exp_plus. apply Rmult_le_compat_r; [left; apply exp_pos|].
        apply exp_ineq1_le. }
      assert (E1' : 1 <= exp (Lam * (tn - t0))).
      { rewrite <- exp_0 at 1. destruct (Rle_lt_or_eq_dec 0 (Lam * (tn - t0))) as [Q|Q]; [nra|left; now apply exp_increasing|rewrite <- Q; lra]. }
      replace (tn - t0) with ((ti - t0) + w) at 2 by (unfold w; ring).
      assert (X1 : 0 <= delta + C0 * h ^ p * (ti - t0)) by (assert (0 <= C0 * h ^ p * (ti - t0)) by (apply Rmult_le_pos; lra); lra).
      assert (X3 : (1 + Lam * w) * e <= exp (Lam * (tn - t0)) * (delta + C0 * h ^ p * (ti - t0))).
      { unfold e. rewrite <- Rmult_assoc. now apply Rmult_le_compat_r. }
      assert (X4 : 0 <= C0 * h ^ p * w) by (apply Rmult_le_pos; lra).
      assert (X5 : C0 * h ^ p * w <= exp (Lam * (tn - t0)) * (C0 * h ^ p * w)) by nra.
      rewrite Rmult_plus_distr_l with (r1 := C0 * h ^ p). nra. }
  intros i Hi. destruct (Main i Hi) as (g & Hgc & Hgw). exists g. split; [exact Hgc|]. intros l Hl. eapply Rle_trans; [exact (Hgw l Hl)|].
  assert (Tin : t0 <= nth i tv 0 <= t1) by (apply Hin; exact Hi).
  set (ti := nth i tv 0) in *.
  assert (Eb : exp (Lam * (ti - t0)) <= E).
  { unfold E. destruct (Rle_lt_or_eq_dec (Lam * (ti - t0)) (Lam * T)) as [Q|Q]; [unfold T; nra|left; now apply exp_increasing|rewrite Q; lra]. }
  assert (Cp : 0 <= C0 * h ^ p) by nra.
  assert (X1 : 0 <= delta + C0 * h ^ p * (ti - t0)) by (assert (0 <= C0 * h ^ p * (ti - t0)) by (apply Rmult_le_pos; lra); lra).
  assert (X2 : delta + C0 * h ^ p * (ti - t0) <= (1 + C0 * T) * (delta + h ^ p)).
  { assert (C0 * h ^ p * (ti - t0) <= C0 * h ^ p * T) by (apply Rmult_le_compat_l; [exact Cp|unfold T; lra]). assert (0 <= C0 * T) by nra. nra. }
  unfold C. rewrite (Rmult_assoc E). apply Rmult_le_compat; [left; apply exp_pos|exact X1|exact Eb|exact X2].
Qed.

Lemma run_error : converges_with_order p B f m t0 t1 (Y 0%nat).
Proof.
  destruct grid_error as (C & H & HH & Acc). exists C, H. split; [exact HH|]. intros h delta init g0 Hh Hd Hinit Hg0.
  destruct (fixed_solve_spec h (do_step B f) t0 t1 init (fun x => exists g, is_col x m g) (proj1 Hh) Ht) as (N & tv & xv & HN & ES & L1 & L2 & Hg & Hx0 & HI & Hfol).
  { exists g0. exact Hinit. }
  { intros t x w _ _ (g & Hx). destruct (step_stg t x g w Hx) as (r & K & E1 & _ & Hr). exists r. split; [exact E1|]. eexists; exact Hr. }
  exists N, tv, xv. do 5 (split; [assumption|]).
  apply (Acc h delta N tv xv g0 Hh Hd L1 L2).
  - rewrite Hg by lia. apply grid_0; lra.
  - rewrite Hg by lia. apply grid_in; lra.
  - intros i Hi. split.
    + pose proof (grid_list_increasing t0 t1 h N tv Ht (proj1 Hh) HN L1 Hg i ltac:(lia)) as Inc. lra.
    + rewrite !Hg by lia. apply grid_h_range; lra.
  - rewrite Hx0. exact Hinit.
  - exact Hg0.
  - intros i Hi. apply Hfol. lia.
Qed.
End Global.

Lemma fixed_ok B p : In (B, p) fixed_list -> (1 <= length (tb B))%nat /\ tableau_ok (ta B) (tb B) (tc B) /\ (1 <= p <= 4)%nat.
Proof.
  intros H. cbn [In fixed_list] in H.
  repeat match type of H with _ \/ _ => destruct H as [H|H] end; try contradiction; injection H as <- <-;
    (split; [vm_compute; lia|split; [split; vm_compute; lia|vm_compute; lia]]).
Qed.

Section Main.
Context (B : tableau R) (f : R -> vector R -> outcome (vector R)) (m p : nat) (F : R -> (nat -> R) -> nat -> R) (t0 t1 : R) (Y : nat -> nat -> R -> R).
Context (rho L : R).
Context (Hs : (1 <= length (tb B))%nat) (Hok : tableau_ok (ta B) (tb B) (tc B)) (Hrow : row_sums (ta B) (tb B) (tc B)).
Context (Hord : has_order (ta B) (tb B) (tc B) p) (Hnode : forall k, (k < length (tb B) - 1)%nat -> 0 <= nth k (tc B) 0 <= 1).
Context (Hf : forall t, computes (f t) m m (F t)) (HY : smooth_solution m F t0 t1 (S p) Y).
Context (Hrho : 0 < rho) (HL : lipschitz_near m F t0 t1 (Y 0%nat) rho L) (Ht : t0 <= t1).

Lemma nodes_c j : (j < length (tb B))%nat -> 0 <= c_of (tc B) j <= 1.
Proof. intros Hj. destruct j as [|j]; cbn; [lra|]. apply Hnode. lia. Qed.

Lemma acc_low : (1 <= p <= 2)%nat -> accurate_on_grids p B f m t0 t1 (Y 0%nat).
Proof.
  intros Hp. destruct HY as (HF & HD & M & HB). pose proof (lip_abs _ _ _ _ _ _ _ HL) as HLa.
  assert (HB' : forall k i t, (k <= S p)%nat -> (i < m)%nat -> t0 <= t <= t1 -> Rabs (Y k i t) <= Rabs M) by (intros; eapply Rle_trans; [apply HB; auto|apply RRle_abs]).
  apply (grid_error B f m p F t0 t1 Y rho (Rabs L) (Rabs M)); auto using Rabs_pos, nodes_c; try lia.
  - intros; apply HD; auto; lia.
  - intros; apply HB'; auto; lia.
  - apply (local_2 m _ p _ _ _ F t0 t1 Y rho (Rabs L) (Rabs M)); auto using Rabs_pos, nodes_c; try lia.
    intros r Hr. apply (quad_cond (ta B) (tb B) (tc B) p); auto.
Qed.
Lemma acc_high J : (3 <= p <= 4)%nat -> smooth_jacobian m F t0 t1 (Y 0%nat) rho (p - 2) J -> accurate_on_grids p B f m t0 t1 (Y 0%nat).
Proof.
  intros Hp ((Q & HJ) & HJd & MJ & HJb). destruct HY as (HF & HD & M & HB). pose proof (lip_abs _ _ _ _ _ _ _ HL) as HLa.
  assert (HB' : forall k i t, (k <= S p)%nat -> (i < m)%nat -> t0 <= t <= t1 -> Rabs (Y k i t) <= Rabs M) by (intros; eapply Rle_trans; [apply HB; auto|apply RRle_abs]).
  assert (HJb' : forall k i l t, (k <= p - 2)%nat -> (i < m)%nat -> (l < m)%nat -> t0 <= t <= t1 -> Rabs (J k i l t) <= Rabs MJ) by (intros; eapply Rle_trans; [apply HJb; auto|apply RRle_abs]).
  assert (HQ : forall r, (r < p)%nat -> sumn (length (tb B)) (fun j => b_of (tb B) j * c_of (tc B) j ^ r) = 1 / INR (S r)) by (intros; now apply (quad_cond (ta B) (tb B) (tc B) p)).
  pose proof (order_alpha _ _ _ p Hrow Hord ltac:(lia)) as OA.
  apply (grid_error B f m p F t0 t1 Y rho (Rabs L) (Rabs M)); auto using Rabs_pos, nodes_c; try lia.
  - intros; apply HD; auto; lia.
  - intros; apply HB'; auto; lia.
  - destruct (Nat.eq_dec p 3) as [E|E].
    + apply (local_3 m _ p _ _ _ F t0 t1 Y rho (Rabs L) (Rabs M)) with (J := J) (Q := Q) (MJ := Rabs MJ); auto using Rabs_pos, nodes_c; try lia.
    + destruct (order_4 _ _ _ p Hrow Hord ltac:(lia)) as (O1 & O2 & O3).
      apply (local_4 m _ p _ _ _ F t0 t1 Y rho (Rabs L) (Rabs M)) with (J := J) (Q := Q) (MJ := Rabs MJ); auto using Rabs_pos, nodes_c; try lia.
Qed.
Lemma conv_low : (1 <= p <= 2)%nat -> converges_with_order p B f m t0 t1 (Y 0%nat).
Proof.
  intros Hp. destruct HY as (HF & HD & M & HB). pose proof (lip_abs _ _ _ _ _ _ _ HL) as HLa.
  assert (HB' : forall k i t, (k <= S p)%nat -> (i < m)%nat -> t0 <= t <= t1 -> Rabs (Y k i t) <= Rabs M) by (intros; eapply Rle_trans; [apply HB; auto|apply RRle_abs]).
  apply (run_error B f m p F t0 t1 Y rho (Rabs L) (Rabs M)); auto using Rabs_pos, nodes_c; try lia.
  - intros; apply HD; auto; lia.
  - intros; apply HB'; auto; lia.
  - apply (local_2 m _ p _ _ _ F t0 t1 Y rho (Rabs L) (Rabs M)); auto using Rabs_pos, nodes_c; try lia.
    intros r Hr. apply (quad_cond (ta B) (tb B) (tc B) p); auto.
Qed.
Lemma conv_high J : (3 <= p <= 4)%nat -> smooth_jacobian m F t0 t1 (Y 0%nat) rho (p - 2) J -> converges_with_order p B f m t0 t1 (Y 0%nat).
Proof.
  intros Hp ((Q & HJ) & HJd & MJ & HJb). destruct HY as (HF & HD & M & HB). pose proof (lip_abs _ _ _ _ _ _ _ HL) as HLa.
  assert (HB' : forall k i t, (k <= S p)%nat -> (i < m)%nat -> t0 <= t <= t1 -> Rabs (Y k i t) <= Rabs M) by (intros; eapply Rle_trans; [apply HB; auto|apply RRle_abs]).
  assert (HJb' : forall k i l t, (k <= p - 2)%nat -> (i < m)%nat -> (l < m)%nat -> t0 <= t <= t1 -> Rabs (J k i l t) <= Rabs MJ) by (intros; eapply Rle_trans; [apply HJb; auto|apply RRle_abs]).
  assert (HQ : forall r, (r < p)%nat -> sumn (length (tb B)) (fun j => b_of (tb B) j * c_of (tc B) j ^ r) = 1 / INR (S r)) by (intros; now apply (quad_cond (ta B) (tb B) (tc B) p)).
  pose proof (order_alpha _ _ _ p Hrow Hord ltac:(lia)) as OA.
  apply (run_error B f m p F t0 t1 Y rho (Rabs L) (Rabs M)); auto using Rabs_pos, nodes_c; try lia.
  - intros; apply HD; auto; lia.
  - intros; apply HB'; auto; lia.
  - destruct (Nat.eq_dec p 3) as [E|E].
    + apply (local_3 m _ p _ _ _ F t0 t1 Y rho (Rabs L) (Rabs M)) with (J := J) (Q := Q) (MJ := Rabs MJ); auto using Rabs_pos, nodes_c; try lia.
    + destruct (order_4 _ _ _ p Hrow Hord ltac:(lia)) as (O1 & O2 & O3).
      apply (local_4 m _ p _ _ _ F t0 t1 Y rho (Rabs L) (Rabs M)) with (J := J) (Q := Q) (MJ := Rabs MJ); auto using Rabs_pos, nodes_c; try lia.
Qed.
Lemma loc_5 J Hs2 : p = 5%nat -> smooth_jacobian m F t0 t1 (Y 0%nat) rho 3 J -> smooth_hessian m F t0 t1 (Y 0%nat) rho (J 0%nat) Hs2 ->
  forall M, (forall k i t, (k <= S p)%nat -> (i < m)%nat -> t0 <= t <= t1 -> Rabs (Y k i t) <= Rabs M) -> forall i, (i < m)%nat ->
  bigO (adm m (length (tb B)) (a_of (ta B)) (c_of (tc B)) F t0 t1 Y rho (Rabs L) (Rabs M)) (fun x : sit => snd (fst x)) (S p) (local (length (tb B)) (b_of (tb B)) Y i).
Proof.
  intros Hp ((Q & HJ) & HJd & MJ & HJb) ((Q3 & HH) & HHd & MH & HHb) M HB'. destruct HY as (HF & HD & _). pose proof (lip_abs _ _ _ _ _ _ _ HL) as HLa.
  assert (HJb' : forall k i l t, (k <= p - 2)%nat -> (i < m)%nat -> (l < m)%nat -> t0 <= t <= t1 -> Rabs (J k i l t) <= Rabs MJ) by (intros; eapply Rle_trans; [apply HJb; auto; lia|apply RRle_abs]).
  assert (HHb' : forall k i l q t, (k <= 1)%nat -> (i < m)%nat -> (l < m)%nat -> (q < m)%nat -> t0 <= t <= t1 -> Rabs (Hs2 k i l q t) <= Rabs MH) by (intros; eapply Rle_trans; [apply HHb; auto|apply RRle_abs]).
  assert (HQ : forall r, (r < p)%nat -> sumn (length (tb B)) (fun j => b_of (tb B) j * c_of (tc B) j ^ r) = 1 / INR (S r)) by (intros; now apply (quad_cond (ta B) (tb B) (tc B) p)).
  pose proof (order_alpha _ _ _ p Hrow Hord ltac:(lia)) as OA.
  destruct (order_4 _ _ _ p Hrow Hord ltac:(lia)) as (O1 & O2 & O3).
  destruct (order_5 _ _ _ p Hrow Hord ltac:(lia)) as (P1 & P2 & P3 & P4 & P5 & P6 & P7 & P8).
  apply (local_5 m _ p _ _ _ F t0 t1 Y rho (Rabs L) (Rabs M)) with (J := J) (Q := Q) (MJ := Rabs MJ) (Hs2 := Hs2) (Q3 := Q3) (MH := Rabs MH);
    auto using Rabs_pos, nodes_c; try lia.
  intros; apply HJd; auto; lia.
Qed.
Lemma acc_5 J Hs2 : p = 5%nat -> smooth_jacobian m F t0 t1 (Y 0%nat) rho 3 J -> smooth_hessian m F t0 t1 (Y 0%nat) rho (J 0%nat) Hs2 ->
  accurate_on_grids p B f m t0 t1 (Y 0%nat).
Proof.
  intros Hp HJ HH. pose proof HY as (HF & HD & M & HB). pose proof (lip_abs _ _ _ _ _ _ _ HL) as HLa.
  assert (HB' : forall k i t, (k <= S p)%nat -> (i < m)%nat -> t0 <= t <= t1 -> Rabs (Y k i t) <= Rabs M) by (intros; eapply Rle_trans; [apply HB; auto|apply RRle_abs]).
  apply (grid_error B f m p F t0 t1 Y rho (Rabs L) (Rabs M)); auto using Rabs_pos, nodes_c; try lia.
  - intros; apply HD; auto; lia.
  - intros; apply HB'; auto; lia.
  - exact (loc_5 J Hs2 Hp HJ HH M HB').
Qed.
Lemma conv_5 J Hs2 : p = 5%nat -> smooth_jacobian m F t0 t1 (Y 0%nat) rho 3 J -> smooth_hessian m F t0 t1 (Y 0%nat) rho (J 0%nat) Hs2 ->
  converges_with_order p B f m t0 t1 (Y 0%nat).
Proof.
  intros Hp HJ HH. pose proof HY as (HF & HD & M & HB). pose proof (lip_abs _ _ _ _ _ _ _ HL) as HLa.
  assert (HB' : forall k i t, (k <= S p)%nat -> (i < m)%nat -> t0 <= t <= t1 -> Rabs (Y k i t) <= Rabs M) by (intros; eapply Rle_trans; [apply HB; auto|apply RRle_abs]).
  apply (run_error B f m p F t0 t1 Y rho (Rabs L) (Rabs M)); auto using Rabs_pos, nodes_c; try lia.
  - intros; apply HD; auto; lia.
  - intros; apply HB'; auto; lia.
  - exact (loc_5 J Hs2 Hp HJ HH M HB').
Qed.
End Main.
