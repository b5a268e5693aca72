(** The QR decomposition with Givens rotations in binary64: Q is orthogonal and Q R = A up to accumulated rounding errors. *)
From Coq Require Import Arith Lia List Bool ZArith Reals Lra Psatz SpecFloat.
From Flocq Require Import Core IEEE754.BinarySingleNaN.
From Verif Require Import Outcome Scalar RealOps Matrix_model Transpose_model Vector_model LU_model Decomp_model Matrix_spec F64_spec F64QR_spec
  Matrix_proofs Transpose_proofs Sums F64Flocq F64Err_proofs F64Lin_proofs F64Chol_proofs F64Grid_proofs F64Euler_proofs Ortho_proofs.
Import ListNotations.
Local Open Scope R_scope.

(** ** One rotation, over the reals *)
Lemma sq_le_abs x y : 0 <= y -> x * x <= y * y -> Rabs x <= y.
Proof. intros Hy H. apply Rsqr_le_abs_0 in H. rewrite (Rabs_pos_eq y Hy) in H. exact H. Qed.
Lemma mul_bound x y a b : Rabs x <= a -> Rabs y <= b -> Rabs (x * y) <= a * b.
Proof. intros H1 H2. rewrite Rabs_mult. apply Rmult_le_compat; try apply Rabs_pos; assumption. Qed.
Lemma rot_comp c s u1 u2 d W : 0 <= d -> 0 <= W -> Rabs (c * c + s * s - 1) <= d -> u1 * u1 + u2 * u2 <= W * W -> Rabs (c * u1 + s * u2) <= (1 + d) * W.
Proof.
  intros Hd HW Hc Hu. apply sq_le_abs; [apply Rmult_le_pos; lra|].
  assert (c * c + s * s <= 1 + d) by (revert Hc; unfold Rabs; destruct Rcase_abs; lra).
  assert (E : (c * u1 + s * u2) * (c * u1 + s * u2) <= (c * c + s * s) * (u1 * u1 + u2 * u2)) by (pose proof (Rle_0_sqr (c * u2 - s * u1)) as Q; unfold Rsqr in Q; lra).
  assert (F : (c * c + s * s) * (u1 * u1 + u2 * u2) <= (1 + d) * (W * W)) by (apply Rmult_le_compat; nra).
  assert (0 <= W * W) by nra. nra.
Qed.
Lemma pair_dot c s u1 u2 v1 v2 x1 x2 y1 y2 d e Wu Wv : 0 <= d -> 0 <= e -> 0 <= Wu -> 0 <= Wv ->
  u1 * u1 + u2 * u2 <= Wu * Wu -> v1 * v1 + v2 * v2 <= Wv * Wv -> Rabs (c * c + s * s - 1) <= d ->
  Rabs (x1 - (c * u1 - s * u2)) <= e * Wu -> Rabs (x2 - (s * u1 + c * u2)) <= e * Wu ->
  Rabs (y1 - (c * v1 - s * v2)) <= e * Wv -> Rabs (y2 - (s * v1 + c * v2)) <= e * Wv ->
  Rabs (x1 * y1 + x2 * y2 - (u1 * v1 + u2 * v2)) <= (d + 4 * e * (1 + d) + 2 * (e * e)) * (Wu * Wv).
Proof.
  intros Hd He HWu HWv Hu Hv Hc Hx1 Hx2 Hy1 Hy2.
  assert (Hc' : Rabs (s * s + c * c - 1) <= d) by (rewrite (Rplus_comm (s * s)); exact Hc).
  assert (Hcn : Rabs (c * c + - s * - s - 1) <= d) by (replace (c * c + - s * - s - 1) with (c * c + s * s - 1) by ring; exact Hc).
  pose proof (rot_comp c (- s) u1 u2 d Wu Hd HWu Hcn Hu) as Xu1. pose proof (rot_comp s c u1 u2 d Wu Hd HWu Hc' Hu) as Xu2.
  pose proof (rot_comp c (- s) v1 v2 d Wv Hd HWv Hcn Hv) as Xv1. pose proof (rot_comp s c v1 v2 d Wv Hd HWv Hc' Hv) as Xv2.
  replace (c * u1 + - s * u2) with (c * u1 - s * u2) in Xu1 by ring. replace (c * v1 + - s * v2) with (c * v1 - s * v2) in Xv1 by ring.
  assert (UV : Rabs (u1 * v1 + u2 * v2) <= Wu * Wv).
  { apply sq_le_abs; [apply Rmult_le_pos; assumption|].
    assert (A1 : (u1 * v1 + u2 * v2) * (u1 * v1 + u2 * v2) <= (u1 * u1 + u2 * u2) * (v1 * v1 + v2 * v2)) by (pose proof (Rle_0_sqr (u1 * v2 - u2 * v1)) as Q; unfold Rsqr in Q; lra).
    assert (A2 : (u1 * u1 + u2 * u2) * (v1 * v1 + v2 * v2) <= (Wu * Wu) * (Wv * Wv)) by (apply Rmult_le_compat; nra). lra. }
  set (a1 := c * u1 - s * u2) in *. set (a2 := s * u1 + c * u2) in *. set (b1 := c * v1 - s * v2) in *. set (b2 := s * v1 + c * v2) in *.
  set (p1 := x1 - a1) in *. set (p2 := x2 - a2) in *. set (q1 := y1 - b1) in *. set (q2 := y2 - b2) in *.
  assert (E : x1 * y1 + x2 * y2 - (u1 * v1 + u2 * v2) =
    (c * c + s * s - 1) * (u1 * v1 + u2 * v2) + (p1 * b1 + p2 * b2) + (a1 * q1 + a2 * q2) + (p1 * q1 + p2 * q2)).
  { unfold p1, p2, q1, q2, a1, a2, b1, b2. ring. }
  rewrite E. pose proof (mul_bound _ _ _ _ Hc UV) as T0.
  pose proof (mul_bound _ _ _ _ Hx1 Xv1) as T1. pose proof (mul_bound _ _ _ _ Hx2 Xv2) as T2.
  pose proof (mul_bound _ _ _ _ Xu1 Hy1) as T3. pose proof (mul_bound _ _ _ _ Xu2 Hy2) as T4.
  pose proof (mul_bound _ _ _ _ Hx1 Hy1) as T5. pose proof (mul_bound _ _ _ _ Hx2 Hy2) as T6.
  assert (K : Rabs ((c * c + s * s - 1) * (u1 * v1 + u2 * v2) + (p1 * b1 + p2 * b2) + (a1 * q1 + a2 * q2) + (p1 * q1 + p2 * q2)) <=
    d * (Wu * Wv) + (e * Wu * ((1 + d) * Wv) + e * Wu * ((1 + d) * Wv)) + ((1 + d) * Wu * (e * Wv) + (1 + d) * Wu * (e * Wv)) + (e * Wu * (e * Wv) + e * Wu * (e * Wv))).
  { eapply Rle_trans; [apply Rabs_triang|]. apply Rplus_le_compat; [eapply Rle_trans; [apply Rabs_triang|]; apply Rplus_le_compat; [eapply Rle_trans; [apply Rabs_triang|]; apply Rplus_le_compat; [exact T0|]|]|];
    (eapply Rle_trans; [apply Rabs_triang|]; apply Rplus_le_compat; assumption). }
  eapply Rle_trans; [exact K|]. apply Req_le. ring.
Qed.

(** ** One rotation in binary64 *)
Lemma eta_small : eta64 <= uro * bpow radix2 (-1000) / 1000000.
Proof.
  unfold eta64, uro. rewrite <- bpow_plus. change (-53 + -1000)%Z with (-1053)%Z. replace (bpow radix2 (-1053)) with (bpow radix2 22 * bpow radix2 (-1075)) by (rewrite <- bpow_plus; reflexivity).
  pose proof (bpow_gt_0 radix2 (-1075)). change (bpow radix2 22) with 4194304. lra.
Qed.
Lemma uro_tiny : uro <= / 1000000000000000.
Proof. rewrite uro_val. lra. Qed.
Lemma rot_round c s u1 u2 d W : 0 <= d <= / 100 -> bpow radix2 (-1000) <= W -> Rabs (c * c + s * s - 1) <= d -> u1 * u1 + u2 * u2 <= W * W ->
  Rabs (rnd64 (rnd64 (c * u1) + rnd64 (s * u2)) - (c * u1 + s * u2)) <= 22 / 10 * uro * W.
Proof.
  intros Hd HW Hc Hu. pose proof uro_pos as U. pose proof uro_tiny as U1. pose proof eta64_pos as E0. pose proof eta_small as E1. pose proof (bpow_gt_0 radix2 (-1000)) as B0.
  assert (HE : eta64 <= uro * W / 1000000). { eapply Rle_trans; [exact E1|]. apply Rmult_le_compat_r; [lra|]. apply Rmult_le_compat_l; lra. }
  assert (S : Rabs (c * u1) + Rabs (s * u2) <= (1 + d) * W).
  { rewrite !Rabs_mult. replace (Rabs c * Rabs u1 + Rabs s * Rabs u2) with (Rabs (Rabs c * Rabs u1 + Rabs s * Rabs u2)).
    2:{ apply Rabs_pos_eq. pose proof (Rabs_pos c). pose proof (Rabs_pos s). pose proof (Rabs_pos u1). pose proof (Rabs_pos u2). nra. }
    assert (SQ : forall x, Rabs x * Rabs x = x * x) by (intro x; unfold Rabs; destruct Rcase_abs; ring).
    apply rot_comp; [lra|lra|rewrite !SQ; exact Hc|rewrite !SQ; exact Hu]. }
  pose proof (rnd_err1 (c * u1)) as R1. pose proof (rnd_err1 (s * u2)) as R2. pose proof (rnd_err1 (rnd64 (c * u1) + rnd64 (s * u2))) as R3.
  set (y1 := rnd64 (c * u1)) in *. set (y2 := rnd64 (s * u2)) in *. set (z := rnd64 (y1 + y2)) in *.
  assert (Y : Rabs (y1 + y2) <= Rabs (c * u1) + Rabs (s * u2) + Rabs (y1 - c * u1) + Rabs (y2 - s * u2)) by (unfold Rabs; repeat destruct Rcase_abs; lra).
  assert (Z : Rabs (z - (c * u1 + s * u2)) <= Rabs (z - (y1 + y2)) + Rabs (y1 - c * u1) + Rabs (y2 - s * u2)) by (unfold Rabs; repeat destruct Rcase_abs; lra).
  set (A := Rabs (c * u1) + Rabs (s * u2)) in *.
  assert (Yb : Rabs (y1 - c * u1) + Rabs (y2 - s * u2) <= uro * A + 2 * eta64) by (unfold A; lra).
  assert (A1 : A <= 101 / 100 * W) by nra.
  assert (A0 : 0 <= A) by (unfold A; pose proof (Rabs_pos (c * u1)); pose proof (Rabs_pos (s * u2)); lra).
  assert (UA : uro * A <= uro * (101 / 100 * W)) by (apply Rmult_le_compat_l; lra).
  assert (UY : uro * Rabs (y1 + y2) <= uro * (A + (uro * A + 2 * eta64))) by (apply Rmult_le_compat_l; lra).
  assert (UUA : uro * (uro * A + 2 * eta64) <= / 1000 * (uro * A + 2 * eta64)) by (apply Rmult_le_compat_r; [nra|lra]).
  rewrite Rmult_plus_distr_l in UY. set (uW := uro * W) in *. replace (uro * (101 / 100 * W)) with (101 / 100 * uW) in UA by (unfold uW; ring).
  replace (22 / 10 * uro * W) with (22 / 10 * uW) by (unfold uW; ring). lra.
Qed.

(** ** Sums with at most two non-zero terms *)
Notation good x := (fvalid x /\ ffin x = true).
Lemma zsum k (f : nat -> f64) : (forall l, (l < k)%nat -> good (f l) /\ fval (f l) = 0) -> good (sumn k f) /\ fval (sumn k f) = 0.
Proof.
  induction k as [|k IH]; intro H; [split; [split; reflexivity|reflexivity]|].
  destruct IH as ((V & F) & E); [intros; apply H; lia|]. destruct (H k) as ((Vk & Fk) & Ek); [lia|].
  cbn [sumn]. destruct (fadd_round _ _ V Vk F Fk) as (E1 & F1).
  { rewrite E, Ek, Rplus_0_l. apply no_ov. rewrite Rabs_R0. apply bpow_ge_0. }
  split; [split; [apply fvalid_add; assumption|exact F1]|]. rewrite E1, E, Ek, Rplus_0_l. apply rnd_0.
Qed.
Lemma keep_sum k n (f : nat -> f64) : (k <= n)%nat -> good (sumn k f) -> Rabs (fval (sumn k f)) <= bpow radix2 1023 ->
  (forall l, (k <= l < n)%nat -> good (f l) /\ fval (f l) = 0) -> good (sumn n f) /\ fval (sumn n f) = fval (sumn k f).
Proof.
  intros Hkn G B H. induction n as [|n IH]; [replace k with 0%nat in * by lia; auto|].
  destruct (Nat.eq_dec k (S n)) as [->|Ne]; [auto|]. destruct IH as ((V & F) & E); [lia|intros; apply H; lia|].
  destruct (H n) as ((Vk & Fk) & Ek); [lia|]. cbn [sumn]. destruct (fadd_round _ _ V Vk F Fk) as (E1 & F1).
  { rewrite Ek, Rplus_0_r, E. apply no_ov. exact B. }
  split; [split; [apply fvalid_add; assumption|exact F1]|]. rewrite E1, Ek, Rplus_0_r, E. apply rnd_fval. apply G.
Qed.
Lemma one_sum n (f : nat -> f64) p : (p < n)%nat -> good (f p) -> Rabs (fval (f p)) <= bpow radix2 1023 ->
  (forall l, (l < n)%nat -> l <> p -> good (f l) /\ fval (f l) = 0) -> good (sumn n f) /\ fval (sumn n f) = fval (f p).
Proof.
  intros Hp (Vp & Fp) B H. destruct (zsum p f) as ((V & F) & E); [intros; apply H; lia|].
  assert (S1 : good (sumn (S p) f) /\ fval (sumn (S p) f) = fval (f p)).
  { cbn [sumn]. destruct (fadd_round _ _ V Vp F Fp) as (E1 & F1); [rewrite E, Rplus_0_l; apply no_ov; exact B|].
    split; [split; [apply fvalid_add; assumption|exact F1]|]. rewrite E1, E, Rplus_0_l. apply rnd_fval. exact Vp. }
  destruct S1 as (G1 & E1). rewrite <- E1. apply keep_sum; [lia|exact G1|rewrite E1; exact B|intros; apply H; lia].
Qed.
Lemma two_sum n (f : nat -> f64) p q : (p < q < n)%nat -> good (f p) -> good (f q) -> Rabs (fval (f p)) <= bpow radix2 1023 ->
  Rabs (rnd64 (fval (f p) + fval (f q))) <= bpow radix2 1022 ->
  (forall l, (l < n)%nat -> l <> p -> l <> q -> good (f l) /\ fval (f l) = 0) -> good (sumn n f) /\ fval (sumn n f) = rnd64 (fval (f p) + fval (f q)).
Proof.
  intros Hp Gp (Vq & Fq) B1 B2 H.
  destruct (one_sum q f p) as ((V & F) & E); [lia|exact Gp|exact B1|intros; apply H; lia|].
  assert (S1 : good (sumn (S q) f) /\ fval (sumn (S q) f) = rnd64 (fval (f p) + fval (f q))).
  { cbn [sumn]. destruct (fadd_round _ _ V Vq F Fq) as (E1 & F1).
    { rewrite E. unfold no_overflow. eapply Rle_lt_trans; [exact B2|]. apply bpow_lt. lia. }
    split; [split; [apply fvalid_add; assumption|exact F1]|]. rewrite E1, E. reflexivity. }
  destruct S1 as (G1 & E1). rewrite <- E1. apply keep_sum; [lia|exact G1|rewrite E1|intros; apply H; lia].
  eapply Rle_trans; [exact B2|]. apply bpow_le. lia.
Qed.

(** ** The cosine and the sine *)
Lemma gam_16 k : gam k + 16 * uro <= gam (k + 16).
Proof.
  pose proof uro_pos as U.
  assert (S : forall j, gam k + INR j * uro <= gam (k + j)).
  { induction j as [|j IH]; [rewrite Nat.add_0_r; simpl; lra|]. rewrite Nat.add_succ_r, gam_S, S_INR. pose proof (gam_pos (k + j)). nra. }
  specialize (S 16%nat). replace (INR 16) with 16 in S by (simpl; lra). exact S.
Qed.
Lemma fneg_good x : good x -> good (neg x) /\ fval (neg x) = - fval x.
Proof.
  intros (V & F). destruct x as [s| | |s p e]; try discriminate F.
  - split; [split; reflexivity|]. change (0 = - 0). ring.
  - split; [split; [exact V|reflexivity]|]. change (fval (S754_finite (negb s) p e) = - fval (S754_finite s p e)).
    unfold fval, BinarySingleNaN.SF2R. rewrite <- F2R_Zopp. f_equal. destruct s; reflexivity.
Qed.
Lemma bp_split a b : bpow radix2 (a + b) = bpow radix2 a * bpow radix2 b.
Proof. apply bpow_plus. Qed.
Section Rot.
Variables (pw : f64 -> f64 -> f64) (k : nat).
Hypothesis SQ : sqrt_good k (fun x => pw x (@half f64 (F64_pops pw))).
Hypothesis Hk : gam (k + 16) <= / 100.
Notation hyp a b := (pw (add (mul a a) (mul b b)) (@half f64 (F64_pops pw))).
Lemma hyp_acc a b : good a -> good b -> bpow radix2 (-500) <= Rmax (Rabs (fval a)) (Rabs (fval b)) ->
  Rabs (fval a) <= bpow radix2 510 -> Rabs (fval b) <= bpow radix2 510 ->
  let p := hyp a b in let D := fval a * fval a + fval b * fval b in
  good p /\ 0 < D /\ 0 < fval p * fval p /\ Rabs (D / (fval p * fval p) - 1) <= gam k + 4 * uro /\ fval p * fval p <= 102 / 100 * D.
Proof.
  intros (Va & Fa) (Vb & Fb) Hl Ba Bb p D. pose proof uro_pos as U. pose proof uro_tiny as U1. pose proof eta64_pos as E0.
  assert (sqb : forall x, Rabs x <= bpow radix2 510 -> 0 <= x * x <= bpow radix2 1020).
  { intros x Hx. change 1020%Z with (510 + 510)%Z. rewrite bp_split. split; [nra|]. rewrite <- (Rabs_pos_eq (x * x)) by nra. apply mul_bound; assumption. }
  assert (B23 : 8 * bpow radix2 1020 = bpow radix2 1023) by (change 1023%Z with (3 + 1020)%Z; rewrite bp_split; reflexivity).
  pose proof (bpow_gt_0 radix2 1020) as B20. pose proof (sqb _ Ba) as SA. pose proof (sqb _ Bb) as SB.
  assert (HD : bpow radix2 (-1000) <= D).
  { change (-1000)%Z with (-500 + -500)%Z. rewrite bp_split. pose proof (bpow_gt_0 radix2 (-500)) as B5.
    assert (T : forall x y, bpow radix2 (-500) <= Rabs x -> 0 <= y -> bpow radix2 (-500) * bpow radix2 (-500) <= x * x + y).
    { intros x y Hx Hy. assert (bpow radix2 (-500) * bpow radix2 (-500) <= Rabs x * Rabs x) by (apply Rmult_le_compat; lra).
      replace (x * x) with (Rabs x * Rabs x) by (unfold Rabs; destruct Rcase_abs; ring). lra. }
    unfold D. revert Hl. unfold Rmax. destruct Rle_dec; intro Hl; [rewrite Rplus_comm|]; apply T; nra. }
  pose proof (bpow_gt_0 radix2 (-1000)) as B1.
  assert (HE : eta64 <= uro * D / 1000000). { eapply Rle_trans; [exact eta_small|]. apply Rmult_le_compat_r; [lra|]. apply Rmult_le_compat_l; lra. }
  destruct (fmul_ok a a Va Va Fa Fa) as (V1 & F1 & R1); [rewrite Rabs_pos_eq; lra|].
  destruct (fmul_ok b b Vb Vb Fb Fb) as (V2 & F2 & R2); [rewrite Rabs_pos_eq; lra|].
  rewrite (Rabs_pos_eq (fval a * fval a)) in R1 by lra. rewrite (Rabs_pos_eq (fval b * fval b)) in R2 by lra.
  set (x1 := fval (mul a a)) in *. set (x2 := fval (mul b b)) in *.
  assert (S12 : Rabs (x1 + x2 - D) <= uro * D + 2 * eta64) by (unfold D; revert R1 R2; unfold Rabs; repeat destruct Rcase_abs; lra).
  assert (D4 : D <= 2 * bpow radix2 1020) by (unfold D; lra).
  assert (UD : uro * D <= / 1000 * D) by (apply Rmult_le_compat_r; lra).
  destruct (fadd_ok (mul a a) (mul b b) V1 V2 F1 F2) as (V3 & F3 & R3).
  { fold x1 x2. revert S12. unfold Rabs; repeat destruct Rcase_abs; lra. }
  fold x1 x2 in R3. set (x := fval (add (mul a a) (mul b b))) in *.
  assert (RX : Rabs (x - D) <= 3 * uro * D).
  { assert (Rabs (x1 + x2) <= D + (uro * D + 2 * eta64)) by (revert S12; unfold Rabs; repeat destruct Rcase_abs; lra).
    assert (U3 : uro * Rabs (x1 + x2) <= uro * (D + (uro * D + 2 * eta64))) by (apply Rmult_le_compat_l; lra).
    assert (U4 : uro * (uro * D + 2 * eta64) <= / 1000 * (uro * D + 2 * eta64)) by (apply Rmult_le_compat_r; nra).
    rewrite Rmult_plus_distr_l in U3.
    assert (R4 : Rabs (x - (x1 + x2)) <= uro * D + / 1000 * (uro * D + 2 * eta64)) by lra. revert R4 S12. clear - HE E0 U HD B1. unfold Rabs; repeat destruct Rcase_abs; lra. }
  assert (X0 : 0 <= x) by (revert RX; unfold Rabs; destruct Rcase_abs; lra).
  destruct SQ as (SA1 & SF). destruct (SA1 _ V3) as (Vp & Hp). pose proof (SF _ V3 F3 X0) as Fp. fold p in Vp, Hp, Fp. destruct (Hp Fp) as (_ & RP). fold x in RP.
  replace (fval p ^ 2) with (fval p * fval p) in RP by ring. set (P := fval p * fval p) in *.
  assert (P0 : 0 <= P) by (unfold P; nra). pose proof (gam_pos k) as G0. pose proof (gam_16 k) as G1. set (g := gam k) in *.
  assert (GP : g * P <= / 100 * P) by (apply Rmult_le_compat_r; lra).
  assert (PD : Rabs (P - D) <= g * P + 3 * uro * D) by (revert RP RX; unfold Rabs; repeat destruct Rcase_abs; lra).
  assert (Pl : 98 / 100 * D <= P <= 102 / 100 * D) by (revert PD; unfold Rabs; destruct Rcase_abs; lra).
  assert (PP : 0 < P) by lra. split; [split; assumption|]. split; [lra|]. split; [exact PP|]. split; [|lra].
  replace (D / P - 1) with ((D - P) / P) by (field; lra). unfold Rdiv. rewrite Rabs_mult, (Rabs_pos_eq (/ P)) by (left; apply Rinv_0_lt_compat; exact PP).
  apply (Rmult_le_reg_r P); [exact PP|]. rewrite Rmult_assoc, Rinv_l, Rmult_1_r by lra. rewrite Rabs_minus_sym. nra.
Qed.
Lemma rot_cs a b : good a -> good b -> bpow radix2 (-500) <= Rmax (Rabs (fval a)) (Rabs (fval b)) ->
  Rabs (fval a) <= bpow radix2 510 -> Rabs (fval b) <= bpow radix2 510 ->
  let p := hyp a b in let c := div a p in let s := div (neg b) p in
  good p /\ fval p <> 0 /\ good c /\ good s /\ Rabs (fval c * fval c + fval s * fval s - 1) <= gam k + 7 * uro /\
  forall W, bpow radix2 (-1000) <= W -> fval a * fval a + fval b * fval b <= W * W -> Rabs (fval s * fval a + fval c * fval b) <= 12 / 10 * uro * W.
Proof.
  intros Ga Gb Hl Ba Bb p c s. pose proof (hyp_acc a b Ga Gb Hl Ba Bb) as H. cbv zeta in H. fold p in H.
  set (D := fval a * fval a + fval b * fval b) in *. destruct H as ((Vp & Fp) & D0 & P0 & HR & PD). set (P := fval p * fval p) in *.
  pose proof uro_pos as U. pose proof uro_tiny as U1. pose proof eta64_pos as E0. pose proof (gam_pos k) as G0. pose proof (gam_16 k) as G1.
  assert (Np : fval p <> 0) by (intro E; unfold P in P0; rewrite E in P0; lra).
  destruct (fneg_good b Gb) as ((Vn & Fn) & En). destruct Ga as (Va & Fa). destruct Gb as (Vb & Fb).
  set (rho := D / P) in *. assert (R1 : 0 <= rho <= 102 / 100) by (revert HR; unfold Rabs; destruct Rcase_abs; lra).
  set (c0 := fval a / fval p). set (s0 := fval (neg b) / fval p).
  assert (CS : c0 * c0 + s0 * s0 = rho) by (unfold c0, s0, rho, D, P; rewrite En; field; exact Np).
  assert (ab : forall x, 0 <= x * x <= 102 / 100 -> Rabs x <= 102 / 100) by (intros x Hx; apply sq_le_abs; lra).
  assert (C1 : Rabs c0 <= 102 / 100) by (apply ab; nra). assert (S1 : Rabs s0 <= 102 / 100) by (apply ab; nra).
  assert (BB : 2 <= bpow radix2 1023) by (change 2 with (bpow radix2 1); apply bpow_le; lia).
  destruct (fdiv_ok a p Va Vp Fa Fp Np) as (Vc & Fc & Rc); [fold c0; lra|]. destruct (fdiv_ok (neg b) p Vn Vp Fn Fp Np) as (Vs & Fs & Rs); [fold s0; lra|].
  fold c in Vc, Fc, Rc. fold s in Vs, Fs, Rs. fold c0 in Rc. fold s0 in Rs. set (cf := fval c) in *. set (sf := fval s) in *.
  split; [split; assumption|]. split; [exact Np|]. split; [split; assumption|]. split; [split; assumption|].
  assert (E2 : eta64 <= uro / 1000000). { eapply Rle_trans; [exact eta_small|]. apply Rmult_le_compat_r; [lra|]. assert (bpow radix2 (-1000) <= 1) by (change 1 with (bpow radix2 0); apply bpow_le; lia). nra. }
  assert (sqd : forall x y, Rabs y <= 102 / 100 -> Rabs (x - y) <= uro * Rabs y + eta64 -> Rabs (x * x - y * y) <= 2 * uro * (y * y) + uro / 1000).
  { intros x y Hy Hx. replace (x * x - y * y) with (2 * (x - y) * y + (x - y) * (x - y)) by ring. eapply Rle_trans; [apply Rabs_triang|].
    assert (Hx2 : Rabs (x - y) <= 11 / 10 * uro) by (pose proof (Rabs_pos y); nra). pose proof (Rabs_pos (x - y)) as Q0. pose proof (Rabs_pos y) as Q1.
    assert (Rabs (2 * (x - y) * y) <= 2 * (uro * Rabs y + eta64) * Rabs y).
    { rewrite !Rabs_mult, (Rabs_pos_eq 2) by lra. apply Rmult_le_compat_r; [exact Q1|]. apply Rmult_le_compat_l; lra. }
    assert (YY : Rabs y * Rabs y = y * y) by (unfold Rabs; destruct Rcase_abs; ring).
    assert (eta64 * Rabs y <= eta64 * (102 / 100)) by (apply Rmult_le_compat_l; lra).
    assert (Rabs ((x - y) * (x - y)) <= (11 / 10 * uro) * (11 / 10 * uro)) by (apply mul_bound; assumption). nra. }
  pose proof (sqd cf c0 C1 Rc) as T1. pose proof (sqd sf s0 S1 Rs) as T2. split.
  - assert (Z : Rabs (cf * cf + sf * sf - 1) <= Rabs (cf * cf - c0 * c0) + Rabs (sf * sf - s0 * s0) + Rabs (rho - 1)).
    { rewrite <- CS. unfold Rabs; repeat destruct Rcase_abs; lra. }
    assert (uro * rho <= uro * (102 / 100)) by (apply Rmult_le_compat_l; lra). rewrite <- CS in H. lra.
  - intros W HW HDW. pose proof (bpow_gt_0 radix2 (-1000)) as B0. set (av := fval a) in *. set (bv := fval b) in *. set (pv := fval p) in *.
    assert (Z : sf * av + cf * bv = (sf - s0) * av + (cf - c0) * bv) by (unfold s0, c0; rewrite En; fold bv; field; exact Np). rewrite Z.
    assert (pB : Rabs pv <= 102 / 100 * W). { apply sq_le_abs; [lra|]. fold P. assert (0 <= W * W) by nra. nra. }
    assert (aW : Rabs av <= W) by (apply sq_le_abs; [lra|]; unfold D in HDW; nra). assert (bW : Rabs bv <= W) by (apply sq_le_abs; [lra|]; unfold D in HDW; nra).
    assert (AB : Rabs av * Rabs bv <= D / 2).
    { unfold D. replace (av * av) with (Rabs av * Rabs av) by (unfold Rabs; destruct Rcase_abs; ring). replace (bv * bv) with (Rabs bv * Rabs bv) by (unfold Rabs; destruct Rcase_abs; ring).
      pose proof (Rle_0_sqr (Rabs av - Rabs bv)) as Q. unfold Rsqr in Q. lra. }
    assert (Pp : 0 < Rabs pv) by (apply Rabs_pos_lt; exact Np).
    assert (Q : Rabs av * Rabs bv / Rabs pv <= 53 / 100 * W).
    { apply (Rmult_le_reg_r (Rabs pv)); [exact Pp|]. unfold Rdiv at 1. rewrite (Rmult_assoc (Rabs av * Rabs bv)), Rinv_l, Rmult_1_r by lra.
      assert (DP : D = rho * (Rabs pv * Rabs pv)) by (unfold rho; replace (Rabs pv * Rabs pv) with P by (unfold P, Rabs; destruct Rcase_abs; ring); field; lra).
      assert (rho * (Rabs pv * Rabs pv) <= 102 / 100 * (Rabs pv * Rabs pv)) by (apply Rmult_le_compat_r; nra).
      assert (Rabs pv * Rabs pv <= 102 / 100 * W * Rabs pv) by (apply Rmult_le_compat_r; lra). assert (0 <= W * Rabs pv) by nra. lra. }
    assert (HE : eta64 * W <= uro * W / 1000000) by (replace (uro * W / 1000000) with (uro / 1000000 * W) by field; apply Rmult_le_compat_r; lra).
    assert (X1 : Rabs ((sf - s0) * av) <= uro * (53 / 100 * W) + eta64 * W).
    { rewrite Rabs_mult. eapply Rle_trans; [apply Rmult_le_compat_r; [apply Rabs_pos|exact Rs]|]. rewrite Rmult_plus_distr_r. apply Rplus_le_compat; [|apply Rmult_le_compat_l; lra].
      rewrite Rmult_assoc. apply Rmult_le_compat_l; [lra|]. unfold s0. rewrite En. fold bv. unfold Rdiv. rewrite Rabs_mult, Rabs_inv, Rabs_Ropp. replace (Rabs bv * / Rabs pv * Rabs av) with (Rabs av * Rabs bv / Rabs pv) by (field; lra). exact Q. }
    assert (X2 : Rabs ((cf - c0) * bv) <= uro * (53 / 100 * W) + eta64 * W).
    { rewrite Rabs_mult. eapply Rle_trans; [apply Rmult_le_compat_r; [apply Rabs_pos|exact Rc]|]. rewrite Rmult_plus_distr_r. apply Rplus_le_compat; [|apply Rmult_le_compat_l; lra].
      rewrite Rmult_assoc. apply Rmult_le_compat_l; [lra|]. unfold c0. unfold Rdiv. rewrite Rabs_mult, Rabs_inv. fold av. replace (Rabs av * / Rabs pv * Rabs bv) with (Rabs av * Rabs bv / Rabs pv) by (field; lra). exact Q. }
    eapply Rle_trans; [apply Rabs_triang|]. assert (0 <= uro * W) by (apply Rmult_le_pos; lra). lra.
Qed.
End Rot.

(** ** A Givens matrix times a column in binary64 *)
Lemma fmul_good x y : good x -> good y -> Rabs (fval x * fval y) <= bpow radix2 1023 -> good (mul x y) /\ fval (mul x y) = rnd64 (fval x * fval y).
Proof.
  intros (Vx & Fx) (Vy & Fy) B. destruct (fmul_round x y Vx Vy Fx Fy (no_ov _ B)) as (E & F). split; [split; [apply fvalid_mul; assumption|exact F]|exact E].
Qed.
Lemma fmul_zero_l x y : good x -> fval x = 0 -> good y -> good (mul x y) /\ fval (mul x y) = 0.
Proof.
  intros Gx E Gy. destruct (fmul_good x y Gx Gy) as (G & E1); [rewrite E, Rmult_0_l, Rabs_R0; apply bpow_ge_0|]. split; [exact G|]. rewrite E1, E, Rmult_0_l. apply rnd_0.
Qed.
Lemma fmul_one_l x y : good x -> fval x = 1 -> good y -> Rabs (fval y) <= bpow radix2 1023 -> good (mul x y) /\ fval (mul x y) = fval y.
Proof.
  intros Gx E Gy B. destruct (fmul_good x y Gx Gy) as (G & E1); [rewrite E, Rmult_1_l; exact B|]. split; [exact G|]. rewrite E1, E, Rmult_1_l. apply rnd_fval, Gy.
Qed.
Lemma good_01 (b : bool) : good (if b then one else zero : f64).
Proof. destruct b; split; reflexivity. Qed.
Section GivensCol.
Variables (m i j : nat) (c s : f64) (u : nat -> f64) (d : R).
Hypotheses (Hij : (j < i < m)%nat) (Gc : good c) (Gs : good s).
Hypothesis Hcs : Rabs (fval c * fval c + fval s * fval s - 1) <= d.
Hypothesis Hd : 0 <= d <= / 100.
Hypothesis Gu : forall l, (l < m)%nat -> good (u l) /\ Rabs (fval (u l)) <= bpow radix2 600.
Notation new r := (sumn m (fun l => mul (gvf i j c s r l) (u l))).
Lemma cs_le2 : Rabs (fval c) <= 2 /\ Rabs (fval s) <= 2.
Proof.
  assert (H : fval c * fval c + fval s * fval s <= 4) by (revert Hcs; unfold Rabs; destruct Rcase_abs; lra).
  split; apply sq_le_abs; nra.
Qed.
Lemma B602 : 4 * bpow radix2 600 = bpow radix2 602. Proof. change 602%Z with (2 + 600)%Z. rewrite bp_split. reflexivity. Qed.
Lemma prod_ok x l : good x -> Rabs (fval x) <= 2 -> (l < m)%nat -> good (mul x (u l)) /\ fval (mul x (u l)) = rnd64 (fval x * fval (u l)) /\ Rabs (fval (mul x (u l))) <= bpow radix2 602.
Proof.
  intros Gx Hx Hl. destruct (Gu l Hl) as (G & B). pose proof (mul_bound _ _ _ _ Hx B) as P. pose proof B602 as E. pose proof (bpow_gt_0 radix2 600) as B0.
  destruct (fmul_good x (u l) Gx G) as (G1 & E1); [eapply Rle_trans; [exact P|]; apply Rle_trans with (bpow radix2 602); [lra|apply bpow_le; lia]|].
  split; [exact G1|]. split; [exact E1|]. rewrite E1. apply abs_round_le_generic; [apply FLT_exp_valid; reflexivity|apply valid_rnd_N|apply generic_format_bpow; cbn; lia|lra].
Qed.
Lemma gv_row r p q : (p < q < m)%nat -> (forall l, (l < m)%nat -> l <> p -> l <> q -> gvf i j c s r l = zero) ->
  good (gvf i j c s r p) -> good (gvf i j c s r q) -> Rabs (fval (gvf i j c s r p)) <= 2 -> Rabs (fval (gvf i j c s r q)) <= 2 ->
  good (new r) /\ fval (new r) = rnd64 (rnd64 (fval (gvf i j c s r p) * fval (u p)) + rnd64 (fval (gvf i j c s r q) * fval (u q))).
Proof.
  intros Hpq Z Gp Gq Bp Bq. destruct (prod_ok _ p Gp Bp) as (G1 & E1 & B1); [lia|]. destruct (prod_ok _ q Gq Bq) as (G2 & E2 & B2); [lia|].
  rewrite <- E1, <- E2. apply (two_sum m (fun l => mul (gvf i j c s r l) (u l)) p q Hpq G1 G2).
  - eapply Rle_trans; [exact B1|]. apply bpow_le. lia.
  - apply Rle_trans with (bpow radix2 603); [|apply bpow_le; lia]. apply abs_round_le_generic; [apply FLT_exp_valid; reflexivity|apply valid_rnd_N|apply generic_format_bpow; cbn; lia|].
    change 603%Z with (1 + 602)%Z. rewrite bp_split. change (bpow radix2 1) with 2. eapply Rle_trans; [apply Rabs_triang|]. lra.
  - intros l Hl N1 N2. rewrite Z by assumption. apply fmul_zero_l; [split; reflexivity|reflexivity|apply Gu; exact Hl].
Qed.
Lemma gv_other r : (r < m)%nat -> r <> i -> r <> j -> good (new r) /\ fval (new r) = fval (u r).
Proof.
  intros Hr Ni Nj. assert (E : forall l, gvf i j c s r l = delta r l).
  { intro l. unfold gvf. repeat match goal with |- context [(?x =? ?y)%nat] => destruct (Nat.eqb_spec x y); subst; try congruence end; cbn; try congruence; reflexivity. }
  assert (P : good (mul (gvf i j c s r r) (u r)) /\ fval (mul (gvf i j c s r r) (u r)) = fval (u r)).
  { rewrite E. unfold delta. rewrite Nat.eqb_refl. apply fmul_one_l; [split; reflexivity|apply fval_one|apply Gu; exact Hr|]. eapply Rle_trans; [apply (Gu r Hr)|]. apply bpow_le. lia. }
  destruct P as (G & E1). rewrite <- E1. apply (one_sum m (fun l => mul (gvf i j c s r l) (u l)) r Hr G).
  - rewrite E1. eapply Rle_trans; [apply (Gu r Hr)|]. apply bpow_le. lia.
  - intros l Hl N. rewrite E. unfold delta. destruct (Nat.eqb_spec r l); [congruence|]. apply fmul_zero_l; [split; reflexivity|reflexivity|apply Gu; exact Hl].
Qed.
Lemma gv_j : good (new j) /\ fval (new j) = rnd64 (rnd64 (fval c * fval (u j)) + rnd64 (- fval s * fval (u i))).
Proof.
  destruct (fneg_good s Gs) as (Gn & En). destruct cs_le2 as (B1 & B2).
  assert (E1 : gvf i j c s j j = c). { unfold gvf. repeat match goal with |- context [(?x =? ?y)%nat] => destruct (Nat.eqb_spec x y); subst; try lia end; reflexivity. }
  assert (E2 : gvf i j c s j i = neg s). { unfold gvf. repeat match goal with |- context [(?x =? ?y)%nat] => destruct (Nat.eqb_spec x y); subst; try lia end; reflexivity. }
  pose proof (gv_row j j i) as H. rewrite E1, E2, En in H. apply H.
  - lia.
  - intros l Hl N1 N2. unfold gvf. repeat match goal with |- context [(?x =? ?y)%nat] => destruct (Nat.eqb_spec x y); subst; try lia end; cbn; unfold delta; destruct (Nat.eqb_spec j l); [congruence|reflexivity].
  - exact Gc.
  - exact Gn.
  - exact B1.
  - rewrite Rabs_Ropp. exact B2.
Qed.
Lemma gv_i : good (new i) /\ fval (new i) = rnd64 (rnd64 (fval s * fval (u j)) + rnd64 (fval c * fval (u i))).
Proof.
  destruct cs_le2 as (B1 & B2).
  assert (E1 : gvf i j c s i j = s). { unfold gvf. repeat match goal with |- context [(?x =? ?y)%nat] => destruct (Nat.eqb_spec x y); subst; try lia end; reflexivity. }
  assert (E2 : gvf i j c s i i = c). { unfold gvf. repeat match goal with |- context [(?x =? ?y)%nat] => destruct (Nat.eqb_spec x y); subst; try lia end; reflexivity. }
  pose proof (gv_row i j i) as H. rewrite E1, E2 in H. apply H.
  - lia.
  - intros l Hl N1 N2. unfold gvf. repeat match goal with |- context [(?x =? ?y)%nat] => destruct (Nat.eqb_spec x y); subst; try lia end; cbn; unfold delta; destruct (Nat.eqb_spec i l); [congruence|reflexivity].
  - exact Gs.
  - exact Gc.
  - exact B2.
  - exact B1.
Qed.
Lemma gv_round W : bpow radix2 (-1000) <= W -> fval (u j) * fval (u j) + fval (u i) * fval (u i) <= W * W ->
  Rabs (fval (new j) - (fval c * fval (u j) - fval s * fval (u i))) <= 22 / 10 * uro * W /\
  Rabs (fval (new i) - (fval s * fval (u j) + fval c * fval (u i))) <= 22 / 10 * uro * W.
Proof.
  intros HW Hu. rewrite (proj2 gv_j), (proj2 gv_i). split.
  - replace (fval c * fval (u j) - fval s * fval (u i)) with (fval c * fval (u j) + - fval s * fval (u i)) by ring.
    apply (rot_round _ _ _ _ d); try assumption. replace (- fval s * - fval s) with (fval s * fval s) by ring. exact Hcs.
  - apply (rot_round _ _ _ _ d); try assumption. rewrite (Rplus_comm (fval s * fval s)). exact Hcs.
Qed.
End GivensCol.

(** ** One rotation and inner products of columns *)
Lemma rsum_two m f g i j : (j < i < m)%nat -> (forall l, (l < m)%nat -> l <> i -> l <> j -> f l = g l) ->
  rsum m f - rsum m g = (f j + f i) - (g j + g i).
Proof.
  intros Hij H. change (@sub R R_ops (rsum m f) (rsum m g) = (f j + f i) - (g j + g i)). rewrite <- (sumn_sub R_RingLaws m f g).
  rewrite (sumn_ext m (fun l => (f l - g l)%sc) (fun l => (if (l =? j)%nat then f j - g j else 0) + (if (l =? i)%nat then f i - g i else 0))).
  - rewrite (sumn_add R_RingLaws). rewrite (sumn_single R_RingLaws m j), (sumn_single R_RingLaws m i); try lia.
    + rewrite !Nat.eqb_refl. change (@add R R_ops) with Rplus. ring.
    + intros l _ N. destruct (Nat.eqb_spec l i); [congruence|reflexivity].
    + intros l _ N. destruct (Nat.eqb_spec l j); [congruence|reflexivity].
  - intros l Hl. change (f l - g l = (if (l =? j)%nat then f j - g j else 0) + (if (l =? i)%nat then f i - g i else 0)).
    destruct (Nat.eqb_spec l j), (Nat.eqb_spec l i); subst; try lia; try ring. rewrite H by assumption. ring.
Qed.
Lemma rsum_ge m f p q : (p < q < m)%nat -> (forall l, (l < m)%nat -> 0 <= f l) -> f p + f q <= rsum m f.
Proof.
  intros Hpq H. assert (E : rsum m f - rsum m (fun l => if (l =? p)%nat || (l =? q)%nat then 0 else f l) = f p + f q).
  { rewrite (rsum_two m f _ q p Hpq); [rewrite !Nat.eqb_refl, orb_true_r; cbn [orb]; ring|].
    intros l _ N1 N2. destruct (Nat.eqb_spec l p), (Nat.eqb_spec l q); try congruence; reflexivity. }
  assert (0 <= rsum m (fun l => if (l =? p)%nat || (l =? q)%nat then 0 else f l)); [|lra].
  apply rsum_pos. intros l Hl. destruct (_ || _); [lra|apply H; exact Hl].
Qed.
Section Step.
Variables (k m i j : nat) (c s : f64).
Hypotheses (Hij : (j < i < m)%nat) (Gc : good c) (Gs : good s).
Hypothesis Hk : gam (k + 16) <= / 100.
Hypothesis Hcs : Rabs (fval c * fval c + fval s * fval s - 1) <= gam k + 7 * uro.
Notation new u r := (sumn m (fun l => mul (gvf i j c s r l) (u l))).
Definition gcol (u : nat -> f64) : Prop := forall l, (l < m)%nat -> good (u l) /\ Rabs (fval (u l)) <= bpow radix2 600.
Lemma dk : 0 <= gam k + 7 * uro <= / 100.
Proof. pose proof uro_pos. pose proof (gam_pos k). pose proof (gam_16 k). lra. Qed.
Lemma pair_step u v Wu Wv : gcol u -> gcol v -> bpow radix2 (-1000) <= Wu -> bpow radix2 (-1000) <= Wv ->
  fval (u j) * fval (u j) + fval (u i) * fval (u i) <= Wu * Wu -> fval (v j) * fval (v j) + fval (v i) * fval (v i) <= Wv * Wv ->
  Rabs (fval (new u j) * fval (new v j) + fval (new u i) * fval (new v i) - (fval (u j) * fval (v j) + fval (u i) * fval (v i))) <= gam (k + 16) * (Wu * Wv).
Proof.
  intros Gu Gv HWu HWv Hu Hv. pose proof dk as D. pose proof uro_pos as U. pose proof uro_tiny as U1. pose proof (bpow_gt_0 radix2 (-1000)) as B0.
  destruct (gv_round m i j c s u (gam k + 7 * uro) Hij Gc Gs Hcs D Gu Wu HWu Hu) as (X1 & X2).
  destruct (gv_round m i j c s v (gam k + 7 * uro) Hij Gc Gs Hcs D Gv Wv HWv Hv) as (Y1 & Y2).
  eapply Rle_trans; [apply (pair_dot (fval c) (fval s) _ _ _ _ _ _ _ _ (gam k + 7 * uro) (22 / 10 * uro) Wu Wv); try assumption; lra|].
  apply Rmult_le_compat_r; [apply Rmult_le_pos; lra|]. pose proof (gam_16 k). pose proof (gam_pos k).
  assert (E1 : uro * (gam k + 7 * uro) <= uro * / 100) by (apply Rmult_le_compat_l; lra).
  assert (E2 : uro * uro <= uro * / 1000) by (apply Rmult_le_compat_l; lra). nra.
Qed.
Lemma new_good u r : gcol u -> (r < m)%nat -> good (new u r).
Proof.
  intros Gu Hr. pose proof dk as D. destruct (Nat.eq_dec r i) as [->|Ni]; [apply (gv_i m i j c s u (gam k + 7 * uro)); assumption|].
  destruct (Nat.eq_dec r j) as [->|Nj]; [apply (gv_j m i j c s u (gam k + 7 * uro)); assumption|]. apply (gv_other m i j c s u); assumption.
Qed.
Lemma new_other u r : gcol u -> (r < m)%nat -> r <> i -> r <> j -> fval (new u r) = fval (u r).
Proof. intros. apply (gv_other m i j c s u); assumption. Qed.
Lemma step_dot u v Wu Wv : gcol u -> gcol v -> bpow radix2 (-1000) <= Wu -> bpow radix2 (-1000) <= Wv ->
  rsum m (fun l => fval (u l) * fval (u l)) <= Wu * Wu -> rsum m (fun l => fval (v l) * fval (v l)) <= Wv * Wv ->
  Rabs (rsum m (fun l => fval (new u l) * fval (new v l)) - rsum m (fun l => fval (u l) * fval (v l))) <= gam (k + 16) * (Wu * Wv).
Proof.
  intros Gu Gv HWu HWv Hu Hv. rewrite (rsum_two m _ _ i j Hij).
  - apply pair_step; try assumption.
    + eapply Rle_trans; [|exact Hu]. apply (rsum_ge m (fun l => fval (u l) * fval (u l)) j i Hij). intros; nra.
    + eapply Rle_trans; [|exact Hv]. apply (rsum_ge m (fun l => fval (v l) * fval (v l)) j i Hij). intros; nra.
  - intros l Hl N1 N2. rewrite !new_other by assumption. reflexivity.
Qed.
End Step.

(** ** The invariant of the decomposition *)
Section Run.
Variables (pw : f64 -> f64 -> f64) (k m n : nat) (a0 : nat -> nat -> f64) (W : nat -> R).
Hypothesis SQ : sqrt_good k (fun x => pw x (@half f64 (F64_pops pw))).
Hypothesis HN : gam ((k + 16) * (m * n)) <= / 100.
Hypothesis HW : forall y, (y < n)%nat -> bpow radix2 (-900) <= W y <= bpow radix2 500 /\ rsum m (fun l => fval (a0 l y) * fval (a0 l y)) <= W y * W y.
Hypothesis Ga : forall l y, (l < m)%nat -> (y < n)%nat -> good (a0 l y).
(** The columns of q (numbers below m) and of r. *)
Definition ent (fq fr : nat -> nat -> f64) (x l : nat) : f64 := if (x <? m)%nat then fq l x else fr l (x - m)%nat.
Definition wt (x : nat) : R := if (x <? m)%nat then 1 else W (x - m)%nat.
Definition idt (l x : nat) : f64 := if (l =? x)%nat then one else zero.
Definition cdot (fq fr : nat -> nat -> f64) (x y : nat) : R := rsum m (fun l => fval (ent fq fr x l) * fval (ent fq fr y l)).
Definition Inv (t : nat) (fq fr : nat -> nat -> f64) : Prop :=
  (forall x l, (x < m + n)%nat -> (l < m)%nat -> good (ent fq fr x l)) /\
  forall x y, (x < m + n)%nat -> (y < m + n)%nat -> Rabs (cdot fq fr x y - cdot idt a0 x y) <= gam ((k + 16) * t) * (wt x * wt y).
Lemma wt_range x : (x < m + n)%nat -> bpow radix2 (-900) <= wt x <= bpow radix2 500.
Proof.
  intro Hx. unfold wt. destruct (Nat.ltb_spec x m); [split; [change 1 with (bpow radix2 0)|change 1 with (bpow radix2 0)]; apply bpow_le; lia|]. apply HW. lia.
Qed.
Lemma fval_idt l x : fval (idt l x) = if (l =? x)%nat then 1 else 0.
Proof. unfold idt. destruct (l =? x)%nat; [apply fval_one|reflexivity]. Qed.
Lemma cdot0_qr x y : (x < m)%nat -> (y < n)%nat -> cdot idt a0 x (m + y) = fval (a0 x y).
Proof.
  intros Hx Hy. unfold cdot, ent. rewrite (proj2 (Nat.ltb_lt x m) Hx). replace (m + y <? m)%nat with false by (symmetry; apply Nat.ltb_ge; lia).
  replace (m + y - m)%nat with y by lia. rewrite (sumn_single R_RingLaws m x); [rewrite fval_idt, Nat.eqb_refl; ring|exact Hx|].
  intros l Hl N. rewrite fval_idt. destruct (Nat.eqb_spec l x); [congruence|]. change (0 * fval (a0 l y) = 0). ring.
Qed.
Lemma cdot0_qq x y : (x < m)%nat -> (y < m)%nat -> cdot idt a0 x y = if (x =? y)%nat then 1 else 0.
Proof.
  intros Hx Hy. unfold cdot, ent. rewrite (proj2 (Nat.ltb_lt x m) Hx), (proj2 (Nat.ltb_lt y m) Hy).
  rewrite (sumn_single R_RingLaws m x); [rewrite !fval_idt, Nat.eqb_refl; ring|exact Hx|].
  intros l Hl N. rewrite !fval_idt. destruct (Nat.eqb_spec l x); [congruence|]. change (0 * (if (l =? y)%nat then 1 else 0) = 0). ring.
Qed.
Lemma cdot0_le x : (x < m + n)%nat -> cdot idt a0 x x <= wt x * wt x.
Proof.
  intro Hx. unfold wt. destruct (Nat.ltb_spec x m) as [H|H]; [rewrite cdot0_qq, Nat.eqb_refl by assumption; lra|].
  unfold cdot, ent. replace (x <? m)%nat with false by (symmetry; apply Nat.ltb_ge; lia). apply HW. lia.
Qed.
Lemma Inv_0 : Inv 0 idt a0.
Proof.
  split.
  - intros x l Hx Hl. unfold ent. destruct (Nat.ltb_spec x m); [apply good_01|apply Ga; lia].
  - intros x y _ _. replace (cdot idt a0 x y - cdot idt a0 x y) with 0 by ring. rewrite Rabs_R0, Nat.mul_0_r. unfold gam. simpl. lra.
Qed.
Lemma Inv_mono t t' fq fr : (t <= t')%nat -> Inv t fq fr -> Inv t' fq fr.
Proof.
  intros H (G & D). split; [exact G|]. intros x y Hx Hy. eapply Rle_trans; [apply D; assumption|].
  pose proof (wt_range x Hx) as (A & _). pose proof (wt_range y Hy) as (B & _). pose proof (bpow_gt_0 radix2 (-900)).
  apply Rmult_le_compat_r; [apply Rmult_le_pos; lra|]. apply gam_mono. apply Nat.mul_le_mono_l. exact H.
Qed.
Lemma gam_t t : (t <= m * n)%nat -> 0 <= gam ((k + 16) * t) <= / 100.
Proof. intro H. split; [apply gam_pos|]. eapply Rle_trans; [|exact HN]. apply gam_mono, Nat.mul_le_mono_l, H. Qed.
Definition ww (t x : nat) : R := sqrt (1 + gam ((k + 16) * t)) * wt x.
Lemma ww_mult t x y : (t <= m * n)%nat -> ww t x * ww t y = (1 + gam ((k + 16) * t)) * (wt x * wt y).
Proof. intro H. pose proof (gam_t t H). unfold ww. rewrite <- (sqrt_sqrt (1 + gam ((k + 16) * t))) at 3 by lra. ring. Qed.
Lemma ww_range t x : (t <= m * n)%nat -> (x < m + n)%nat -> wt x <= ww t x <= 101 / 100 * wt x.
Proof.
  intros H Hx. pose proof (gam_t t H) as G. pose proof (wt_range x Hx) as (A & _). pose proof (bpow_gt_0 radix2 (-900)). unfold ww. set (g := gam ((k + 16) * t)) in *.
  assert (1 <= sqrt (1 + g)) by (rewrite <- sqrt_1 at 1; apply sqrt_le_1_alt; lra).
  assert (sqrt (1 + g) <= 101 / 100). { rewrite <- (sqrt_Rsqr (101 / 100)) by lra. apply sqrt_le_1_alt. unfold Rsqr. lra. }
  split; [rewrite <- (Rmult_1_l (wt x)) at 1|]; apply Rmult_le_compat_r; lra.
Qed.
Lemma Inv_norm t fq fr x : (t <= m * n)%nat -> Inv t fq fr -> (x < m + n)%nat -> cdot fq fr x x <= ww t x * ww t x.
Proof.
  intros H (_ & D) Hx. rewrite ww_mult by exact H. specialize (D x x Hx Hx). pose proof (cdot0_le x Hx).
  revert D. set (w2 := wt x * wt x) in *. unfold Rabs; destruct Rcase_abs; lra.
Qed.
Lemma Inv_gcol t fq fr x : (t <= m * n)%nat -> Inv t fq fr -> (x < m + n)%nat -> forall l, (l < m)%nat ->
  good (ent fq fr x l) /\ Rabs (fval (ent fq fr x l)) <= 101 / 100 * wt x /\ Rabs (fval (ent fq fr x l)) <= bpow radix2 510.
Proof.
  intros H HI Hx l Hl. split; [apply HI; assumption|].
  pose proof (wt_range x Hx) as (A & B). pose proof (ww_range t x H Hx) as (C & D). pose proof (bpow_gt_0 radix2 (-900)).
  assert (E : Rabs (fval (ent fq fr x l)) <= ww t x).
  { apply sq_le_abs; [lra|]. eapply Rle_trans; [|apply (Inv_norm t fq fr x H HI Hx)]. unfold cdot.
    assert (S : forall f q, (q < m)%nat -> (forall p, (p < m)%nat -> 0 <= f p) -> f q <= rsum m f).
    { intros f q Hq Hf. clear - Hq Hf. induction m as [|m' IH]; [lia|]. rewrite rsum_S. destruct (Nat.eq_dec q m') as [->|N].
      - assert (0 <= rsum m' f) by (apply rsum_pos; intros; apply Hf; lia). lra.
      - assert (f q <= rsum m' f) by (apply IH; [lia|intros; apply Hf; lia]). assert (0 <= f m') by (apply Hf; lia). lra. }
    apply (S (fun p => fval (ent fq fr x p) * fval (ent fq fr x p)) l Hl). intros; nra. }
  split; [lra|]. assert (bpow radix2 510 = 1024 * bpow radix2 500) by (change 510%Z with (10 + 500)%Z; rewrite bp_split; reflexivity). pose proof (bpow_gt_0 radix2 500). lra.
Qed.
Lemma ent_mulf G fq fr x l : ent (mulf m G fq) (mulf m G fr) x l = sumn m (fun p => mul (G l p) (ent fq fr x p)).
Proof. unfold ent, mulf. destruct (x <? m)%nat; reflexivity. Qed.
(** What is known of one treated position: nothing happens, or a rotation is applied. *)
Lemma step_cases t fq fr q r j i : (t <= m * n)%nat -> (j < i < m)%nat -> (j < n)%nat -> Inv t fq fr -> is_mat q m m fq -> is_mat r m n fr ->
  pair_large (fval (fr j j)) (fval (fr i j)) ->
  (@qr_step f64 F64_ops (F64_pops pw) j i (q, r) = Ret (q, r) /\ (fval (fr j j) = 0 \/ fval (fr i j) = 0)) \/
  (fval (fr j j) <> 0 /\ fval (fr i j) <> 0 /\
   exists c s q' r', good c /\ good s /\ Rabs (fval c * fval c + fval s * fval s - 1) <= gam k + 7 * uro /\
     (forall V, bpow radix2 (-1000) <= V -> fval (fr j j) * fval (fr j j) + fval (fr i j) * fval (fr i j) <= V * V ->
        Rabs (fval s * fval (fr j j) + fval c * fval (fr i j)) <= 12 / 10 * uro * V) /\
     @qr_step f64 F64_ops (F64_pops pw) j i (q, r) = Ret (q', r') /\
     is_mat q' m m (mulf m (gvf i j c s) fq) /\ is_mat r' m n (mulf m (gvf i j c s) fr)).
Proof.
  intros Ht Hij Hj HI Hq Hr Hp. assert (m * n <> 0)%nat by (destruct m, n; lia).
  assert (K : gam (k + 16) <= / 100). { eapply Rle_trans; [|exact HN]. apply gam_mono. destruct (m * n)%nat; [lia|]. lia. }
  assert (GX : forall l, (l < m)%nat -> good (fr l j) /\ Rabs (fval (fr l j)) <= bpow radix2 510).
  { intros l Hl. destruct (Inv_gcol t fq fr (m + j) Ht HI ltac:(lia) l Hl) as (G1 & _ & G2). unfold ent in G1, G2.
    replace (m + j <? m)%nat with false in G1, G2 by (symmetry; apply Nat.ltb_ge; lia). replace (m + j - m)%nat with j in G1, G2 by lia. auto. }
  destruct (GX j) as (G1 & B1); [lia|]. destruct (GX i) as (G2 & B2); [lia|].
  unfold qr_step. cbn [fst snd]. rewrite (is_mat_get r m n fr j j Hr), (is_mat_get r m n fr i j Hr) by lia. cbn [bind].
  pose proof (feqb_zero _ (proj1 G1) (proj2 G1)) as Q1. pose proof (feqb_zero _ (proj1 G2) (proj2 G2)) as Q2.
  destruct (eqb (fr j j) zero) eqn:E1.
  { left. rewrite andb_false_r. cbn [andb]. split; [reflexivity|]. left. destruct (Req_dec (fval (fr j j)) 0); [assumption|]. apply Q1 in H0. discriminate. }
  destruct (eqb (fr i j) zero) eqn:E2.
  { left. rewrite andb_false_r. split; [reflexivity|]. right. destruct (Req_dec (fval (fr i j)) 0); [assumption|]. apply Q2 in H0. discriminate. }
  right. assert (N1 : fval (fr j j) <> 0) by (apply Q1; reflexivity). assert (N2 : fval (fr i j) <> 0) by (apply Q2; reflexivity).
  split; [exact N1|]. split; [exact N2|]. destruct Hp as [Hp|[Hp|Hp]]; [contradiction|contradiction|].
  pose proof (rot_cs pw k SQ K (fr j j) (fr i j) G1 G2 Hp B1 B2) as R. cbv zeta in R.
  change (@tpow f64 (F64_pops pw)) with pw. set (p := pw _ _) in *. destruct R as ((Vp & Fp) & Np & Gc & Gs & Hcs & Hz).
  assert (Ep : eqb p zero = false) by (apply feqb_zero; assumption). rewrite Ep. cbn [negb andb].
  set (c := div (fr j j) p) in *. set (s := div (neg (fr i j)) p) in *.
  rewrite (is_mat_rows r m n fr Hr). destruct (mgivens_spec m i j c s) as (Gm & EG & HG); [lia|lia|lia|]. rewrite EG. cbn [bind].
  destruct (mmul_spec Gm r m m n _ _ HG Hr) as (r' & Er & Hr'). rewrite Er. cbn [bind].
  destruct (mmul_spec Gm q m m m _ _ HG Hq) as (q' & Eq & Hq'). rewrite Eq. cbn [bind].
  exists c, s, q', r'. split; [exact Gc|]. split; [exact Gs|]. split; [exact Hcs|]. split; [exact Hz|]. split; [reflexivity|]. split; assumption.
Qed.
Lemma Inv_step t fq fr j i c s : (S t <= m * n)%nat -> (j < i < m)%nat -> Inv t fq fr -> good c -> good s ->
  Rabs (fval c * fval c + fval s * fval s - 1) <= gam k + 7 * uro -> Inv (S t) (mulf m (gvf i j c s) fq) (mulf m (gvf i j c s) fr).
Proof.
  intros Ht Hij HI Gc Gs Hcs. assert (Ht' : (t <= m * n)%nat) by lia.
  assert (K : gam (k + 16) <= / 100). { eapply Rle_trans; [|exact HN]. apply gam_mono. destruct (m * n)%nat; [lia|]. lia. }
  assert (GC : forall x, (x < m + n)%nat -> gcol m (ent fq fr x)).
  { intros x Hx l Hl. destruct (Inv_gcol t fq fr x Ht' HI Hx l Hl) as (G & _ & B). split; [exact G|]. eapply Rle_trans; [exact B|]. apply bpow_le. lia. }
  split.
  - intros x l Hx Hl. rewrite ent_mulf. apply (new_good k m i j c s Hij Gc Gs K Hcs (ent fq fr x) l (GC x Hx) Hl).
  - intros x y Hx Hy. pose proof (proj2 HI x y Hx Hy) as D.
    assert (WL : forall z, (z < m + n)%nat -> bpow radix2 (-1000) <= ww t z).
    { intros z Hz. pose proof (ww_range t z Ht' Hz). pose proof (wt_range z Hz). assert (bpow radix2 (-1000) <= bpow radix2 (-900)) by (apply bpow_le; lia). lra. }
    pose proof (step_dot k m i j c s Hij Gc Gs K Hcs (ent fq fr x) (ent fq fr y) (ww t x) (ww t y) (GC x Hx) (GC y Hy) (WL x Hx) (WL y Hy)
      (Inv_norm t fq fr x Ht' HI Hx) (Inv_norm t fq fr y Ht' HI Hy)) as S1.
    assert (E : cdot (mulf m (gvf i j c s) fq) (mulf m (gvf i j c s) fr) x y =
      rsum m (fun l => fval (sumn m (fun p => mul (gvf i j c s l p) (ent fq fr x p))) * fval (sumn m (fun p => mul (gvf i j c s l p) (ent fq fr y p))))).
    { unfold cdot. apply sumn_ext. intros l _. rewrite !ent_mulf. reflexivity. }
    rewrite <- E in S1. fold (cdot fq fr x y) in S1. rewrite ww_mult in S1 by exact Ht'.
    replace ((k + 16) * S t)%nat with ((k + 16) + (k + 16) * t)%nat by lia. rewrite gam_plus.
    set (g := gam ((k + 16) * t)) in *. set (h := gam (k + 16)) in *. set (w2 := wt x * wt y) in *.
    replace ((h * (1 + g) + g) * w2) with (h * ((1 + g) * w2) + g * w2) by ring.
    eapply Rle_trans; [|apply Rplus_le_compat; [exact S1|exact D]]. eapply Rle_trans; [|apply Rabs_triang]. apply Req_le. f_equal. ring.
Qed.

(** ** The loops *)
Definition colpos (j : nat) : list (nat * nat) := map (fun i => (j, i)) (rev (seq (j + 1) (m - (j + 1)))).
Definition pre (j i : nat) : list (nat * nat) := flat_map colpos (seq 0 j) ++ map (fun i => (j, i)) (rev (seq i (m - i))).
Lemma pre_S j i : (i < m)%nat -> pre j i = pre j (S i) ++ [(j, i)].
Proof.
  intro H. unfold pre. rewrite <- app_assoc. f_equal. replace (m - i)%nat with (S (m - S i)) by lia. cbn [seq rev]. rewrite map_app. reflexivity.
Qed.
Lemma pre_next j : pre j (j + 1) = pre (S j) m.
Proof.
  unfold pre. rewrite Nat.sub_diag, seq_S, flat_map_app. cbn [flat_map Nat.add]. change (rev (seq m 0)) with (@nil nat). cbn [map]. rewrite !app_nil_r. reflexivity.
Qed.
Lemma order_split j i : (j < n)%nat -> (j < i <= m)%nat -> exists l2, qr_order m n = pre j i ++ l2.
Proof.
  intros Hj Hi. unfold qr_order, pre. fold colpos. assert (En : seq 0 n = seq 0 j ++ j :: seq (S j) (n - S j)). { transitivity (seq 0 (j + S (n - S j))); [f_equal; lia|]. rewrite seq_app. reflexivity. }
  rewrite En, flat_map_app. cbn [flat_map].
  assert (E : colpos j = map (fun i => (j, i)) (rev (seq i (m - i))) ++ map (fun i => (j, i)) (rev (seq (j + 1) (i - (j + 1))))).
  { unfold colpos. rewrite <- map_app, <- rev_app_distr. f_equal. f_equal. replace (m - (j + 1))%nat with ((i - (j + 1)) + (m - i))%nat by lia. rewrite seq_app. do 2 f_equal. lia. }
  fold (colpos j). rewrite E. eexists. rewrite <- !app_assoc. reflexivity.
Qed.
Lemma after_snoc {T} {O : Ops T} {P : POps T} l p (st st1 : matrix T * matrix T) : qr_after l st = Ret st1 -> qr_after (l ++ [p]) st = qr_step (fst p) (snd p) st1.
Proof. intro H. unfold qr_after in *. rewrite fold_left_app, H. reflexivity. Qed.
Variables (A I0 : matrix f64).
Hypothesis HA : is_mat A m n a0.
Hypothesis HI0 : mone m = Ret I0.
Hypothesis PL : qr_pairs pw A pair_large.
Definition zeta (c : nat) : R := 4 * uro * W c.
Definition tail (fr : nat -> nat -> f64) (c : nat) : R := rsum m (fun l => if (c <? l)%nat then fval (fr l c) * fval (fr l c) else 0).
Definition LI (j i : nat) (st : matrix f64 * matrix f64) : Prop := exists fq fr, is_mat (fst st) m m fq /\ is_mat (snd st) m n fr /\
  Inv (j * m + (m - i)) fq fr /\ @qr_after f64 F64_ops (F64_pops pw) (pre j i) (I0, A) = Ret st /\
  (qr_pairs pw A pair_eliminated ->
     (forall c, (c < j)%nat -> tail fr c <= INR m * (zeta c * zeta c) * (1 + gam ((k + 16) * (j * m + (m - i))))) /\
     ((j < n)%nat -> forall l, (i <= l < m)%nat -> Rabs (fval (fr l j)) <= zeta j)).
Lemma zeta_low c : (c < n)%nat -> bpow radix2 (-1000) <= zeta c.
Proof.
  intro Hc. destruct (HW c Hc) as ((B & _) & _). unfold zeta, uro. apply Rle_trans with (4 * bpow radix2 (-53) * bpow radix2 (-900)).
  - rewrite Rmult_assoc, <- bpow_plus. change 4 with (bpow radix2 2). rewrite <- bpow_plus. apply bpow_le. lia.
  - apply Rmult_le_compat_l; [pose proof (bpow_ge_0 radix2 (-53)); lra|exact B].
Qed.
Lemma tail_step g fr j i c s x : 0 <= g <= / 100 -> (x < j < i)%nat -> (i < m)%nat -> (x < n)%nat -> gam (k + 16) <= / 100 -> good c -> good s ->
  Rabs (fval c * fval c + fval s * fval s - 1) <= gam k + 7 * uro -> gcol m (fun l => fr l x) ->
  tail fr x <= INR m * (zeta x * zeta x) * (1 + g) -> tail (mulf m (gvf i j c s) fr) x <= INR m * (zeta x * zeta x) * ((1 + g) * (1 + gam (k + 16))).
Proof.
  intros Hg Hx Hi Hxn K Gc Gs Hcs GC T. pose proof (zeta_low x Hxn) as ZL. pose proof (bpow_gt_0 radix2 (-1000)) as B0.
  assert (M1 : 1 <= INR m) by (change 1 with (INR 1); apply le_INR; lia). assert (Mg : 1 <= INR m * (1 + g)) by nra.
  set (Z := sqrt (INR m * (1 + g)) * zeta x).
  assert (ZZ : Z * Z = INR m * (zeta x * zeta x) * (1 + g)).
  { unfold Z. replace (sqrt (INR m * (1 + g)) * zeta x * (sqrt (INR m * (1 + g)) * zeta x)) with (sqrt (INR m * (1 + g)) * sqrt (INR m * (1 + g)) * (zeta x * zeta x)) by ring. rewrite sqrt_sqrt by lra. ring. }
  assert (S1 : 1 <= sqrt (INR m * (1 + g))) by (rewrite <- sqrt_1 at 1; apply sqrt_le_1_alt; exact Mg).
  assert (Z1 : bpow radix2 (-1000) <= Z) by (unfold Z; nra).
  assert (P2 : fval (fr j x) * fval (fr j x) + fval (fr i x) * fval (fr i x) <= Z * Z).
  { rewrite ZZ. eapply Rle_trans; [|exact T]. unfold tail.
    pose proof (rsum_ge m (fun l => if (x <? l)%nat then fval (fr l x) * fval (fr l x) else 0) j i) as R. cbv beta in R.
    rewrite (proj2 (Nat.ltb_lt x j)), (proj2 (Nat.ltb_lt x i)) in R by lia. apply R; [lia|]. intros l _. destruct (x <? l)%nat; nra. }
  assert (Hij : (j < i < m)%nat) by lia.
  pose proof (pair_step k m i j c s Hij Gc Gs K Hcs (fun l => fr l x) (fun l => fr l x) Z Z GC GC Z1 Z1 P2 P2) as D.
  assert (E : tail (mulf m (gvf i j c s) fr) x - tail fr x = (fval (mulf m (gvf i j c s) fr j x) * fval (mulf m (gvf i j c s) fr j x) + fval (mulf m (gvf i j c s) fr i x) * fval (mulf m (gvf i j c s) fr i x)) - (fval (fr j x) * fval (fr j x) + fval (fr i x) * fval (fr i x))).
  { unfold tail. rewrite (rsum_two m _ _ i j Hij); [rewrite (proj2 (Nat.ltb_lt x j)), (proj2 (Nat.ltb_lt x i)) by lia; reflexivity|].
    intros l Hl N1 N2. destruct (x <? l)%nat; [|reflexivity]. unfold mulf at 1 2. rewrite (new_other m i j c s Hij (fun l => fr l x) l GC Hl N1 N2). reflexivity. }
  match type of E with _ = ?X => change (Rabs X <= gam (k + 16) * (Z * Z)) in D end. rewrite <- E, ZZ in D.
  set (h := gam (k + 16)) in *. revert D T. set (B := INR m * (zeta x * zeta x) * (1 + g)). replace (INR m * (zeta x * zeta x) * ((1 + g) * (1 + h))) with (B + h * B) by (unfold B; ring).
  unfold Rabs; destruct Rcase_abs; lra.
Qed.
Lemma LI_step j i st : (j < n)%nat -> (j + 1 <= i < m)%nat -> LI j (S i) st -> exists st', @qr_step f64 F64_ops (F64_pops pw) j i st = Ret st' /\ LI j i st'.
Proof.
  intros Hj Hi (fq & fr & Hq & Hr & HI & HP & HT). destruct st as [q r]. cbn [fst snd] in Hq, Hr.
  assert (HT2 : (j * m + (m - i) <= m * n)%nat) by nia. assert (ET : (j * m + (m - i) = S (j * m + (m - S i)))%nat) by lia.
  assert (HT1 : (j * m + (m - S i) <= m * n)%nat) by lia.
  destruct (order_split j i Hj ltac:(lia)) as (l2 & EO). rewrite pre_S, <- app_assoc in EO by lia. cbn [app] in EO.
  assert (QP : forall ok, qr_pairs pw A ok -> ok (fval (fr j j)) (fval (fr i j))).
  { intros ok H. apply (H (pre j (S i)) j i l2 I0 q r).
    - rewrite (is_mat_rows A m n a0 HA), (is_mat_cols A m n a0 HA). exact EO.
    - rewrite (is_mat_rows A m n a0 HA). exact HI0.
    - exact HP.
    - apply (is_mat_get r m n fr); [exact Hr|lia|exact Hj].
    - apply (is_mat_get r m n fr); [exact Hr|lia|exact Hj]. }
  assert (K : gam (k + 16) <= / 100). { eapply Rle_trans; [|exact HN]. apply gam_mono. assert (m * n <> 0)%nat by (destruct m, n; lia). destruct (m * n)%nat; [lia|]. lia. }
  assert (GMid : gam ((k + 16) * (j * m + (m - S i))) <= gam ((k + 16) * (j * m + (m - i)))) by (apply gam_mono, Nat.mul_le_mono_l; lia).
  pose proof uro_pos as U. pose proof (bpow_gt_0 radix2 (-900)) as B9.
  assert (Z0 : forall c, (c < n)%nat -> 0 <= zeta c) by (intros c Hc; eapply Rle_trans; [|apply zeta_low; exact Hc]; apply bpow_ge_0).
  destruct (step_cases _ fq fr q r j i HT1 ltac:(lia) Hj HI Hq Hr (QP _ PL)) as [(E & HZ)|(N1 & N2 & c & s & q' & r' & Gc & Gs & Hcs & Hz & E & Hq' & Hr')].
  - exists (q, r). split; [exact E|]. exists fq, fr. split; [exact Hq|]. split; [exact Hr|]. split; [apply (Inv_mono (j * m + (m - S i))); [lia|exact HI]|].
    split; [rewrite pre_S by lia; rewrite (after_snoc _ _ _ _ HP); exact E|].
    intro PE. destruct (HT PE) as (HT3 & HT4). split.
    + intros x Hx. eapply Rle_trans; [apply HT3; exact Hx|]. apply Rmult_le_compat_l; [|lra]. apply Rmult_le_pos; [apply pos_INR|]. pose proof (Z0 x ltac:(lia)). nra.
    + intros _ l Hl. destruct (Nat.eq_dec l i) as [->|Nl]; [|apply HT4; [exact Hj|lia]].
      assert (Ez : fval (fr i j) = 0). { destruct HZ as [HZ|HZ]; [|exact HZ]. destruct (QP _ PE) as [H|(H & _)]; [exact H|contradiction]. }
      rewrite Ez, Rabs_R0. apply Z0. exact Hj.
  - exists (q', r'). split; [exact E|]. exists (mulf m (gvf i j c s) fq), (mulf m (gvf i j c s) fr). split; [exact Hq'|]. split; [exact Hr'|].
    split; [rewrite ET; apply Inv_step; try assumption; [lia|lia]|]. split; [rewrite pre_S by lia; rewrite (after_snoc _ _ _ _ HP); exact E|].
    assert (GC : forall x, (x < n)%nat -> gcol m (fun l => fr l x)).
    { intros x Hx l Hl. destruct (Inv_gcol _ fq fr (m + x) HT1 HI ltac:(lia) l Hl) as (G & _ & B). unfold ent in G, B.
      replace (m + x <? m)%nat with false in G, B by (symmetry; apply Nat.ltb_ge; lia). replace (m + x - m)%nat with x in G, B by lia.
      split; [exact G|]. eapply Rle_trans; [exact B|]. apply bpow_le. lia. }
    assert (Hij : (j < i < m)%nat) by lia.
    intro PE. destruct (HT PE) as (HT3 & HT4). split.
    + intros x Hx. pose proof (gam_t _ HT1) as Gt.
      pose proof (tail_step (gam ((k + 16) * (j * m + (m - S i)))) fr j i c s x Gt ltac:(lia) ltac:(lia) ltac:(lia) K Gc Gs Hcs (GC x ltac:(lia)) (HT3 x Hx)) as TS.
      eapply Rle_trans; [exact TS|]. apply Req_le. f_equal. rewrite ET. replace ((k + 16) * S (j * m + (m - S i)))%nat with ((k + 16) + (k + 16) * (j * m + (m - S i)))%nat by lia. rewrite (gam_plus (k + 16) ((k + 16) * (j * m + (m - S i)))). ring.
    + intros _ l Hl. destruct (Nat.eq_dec l i) as [->|Nl].
      * assert (CW : fval (fr j j) * fval (fr j j) + fval (fr i j) * fval (fr i j) <= ww (j * m + (m - S i)) (m + j) * ww (j * m + (m - S i)) (m + j)).
        { eapply Rle_trans; [|apply (Inv_norm _ fq fr (m + j) HT1 HI ltac:(lia))]. unfold cdot, ent. replace (m + j <? m)%nat with false by (symmetry; apply Nat.ltb_ge; lia). replace (m + j - m)%nat with j by lia.
          apply (rsum_ge m (fun l => fval (fr l j) * fval (fr l j)) j i Hij). intros; nra. }
        pose proof (ww_range _ (m + j) HT1 ltac:(lia)) as (WA & WB). assert (EW : wt (m + j) = W j).
        { unfold wt. replace (m + j <? m)%nat with false by (symmetry; apply Nat.ltb_ge; lia). f_equal. lia. }
        rewrite EW in WA, WB. destruct (HW j Hj) as ((WC & _) & _).
        assert (WL : bpow radix2 (-1000) <= ww (j * m + (m - S i)) (m + j)). { apply Rle_trans with (bpow radix2 (-900)); [apply bpow_le; lia|lra]. }
        destruct (gv_round m i j c s (fun l => fr l j) (gam k + 7 * uro) Hij Gc Gs Hcs (dk k K) (GC j Hj) _ WL CW) as (_ & R2).
        pose proof (Hz _ WL CW) as R1. change (Rabs (fval (mulf m (gvf i j c s) fr i j) - (fval s * fval (fr j j) + fval c * fval (fr i j))) <= 22 / 10 * uro * ww (j * m + (m - S i)) (m + j)) in R2. set (w := ww (j * m + (m - S i)) (m + j)) in *.
        set (x := fval (mulf m (gvf i j c s) fr i j)) in *. set (y := fval s * fval (fr j j) + fval c * fval (fr i j)) in *.
        assert (Rabs x <= 34 / 10 * uro * w) by (revert R1 R2; unfold Rabs; repeat destruct Rcase_abs; lra).
        assert (uro * w <= uro * (101 / 100 * W j)) by (apply Rmult_le_compat_l; lra). assert (0 <= uro * W j) by (apply Rmult_le_pos; lra). unfold zeta. lra.
      * unfold mulf. rewrite (new_other m i j c s Hij (fun l => fr l j) l (GC j Hj)) by lia. apply HT4; [exact Hj|lia].
Qed.
Lemma LI_next j st : (j < n)%nat -> (n <= m)%nat -> LI j (j + 1) st -> LI (S j) m st.
Proof.
  intros Hj Hnm (fq & fr & Hq & Hr & HI & HP & HT). exists fq, fr. split; [exact Hq|]. split; [exact Hr|].
  assert (LT : (j * m + (m - (j + 1)) <= S j * m + (m - m))%nat) by (cbn [Nat.mul]; lia).
  split; [apply (Inv_mono _ _ _ _ LT HI)|]. split; [rewrite <- pre_next; exact HP|].
  intro PE. destruct (HT PE) as (HT3 & HT4). split; [|intros _ l Hl; lia].
  assert (Z0 : forall c, (c < n)%nat -> 0 <= zeta c) by (intros c Hc; eapply Rle_trans; [|apply zeta_low; exact Hc]; apply bpow_ge_0).
  intros x Hx. assert (M0 : 0 <= INR m * (zeta x * zeta x)) by (apply Rmult_le_pos; [apply pos_INR|]; pose proof (Z0 x ltac:(lia)); nra).
  destruct (Nat.eq_dec x j) as [->|Nx].
  - apply Rle_trans with (INR m * (zeta j * zeta j)); [|pose proof (gam_pos ((k + 16) * (S j * m + (m - m)))); nra].
    unfold tail. specialize (HT4 Hj). specialize (Z0 j Hj).
    assert (S : forall f b p, (forall l, (l < p)%nat -> f l <= b) -> rsum p f <= INR p * b).
    { intros f b p. induction p as [|p IH]; intro H; [simpl; lra|]. rewrite rsum_S, S_INR. specialize (IH ltac:(intros; apply H; lia)). specialize (H p ltac:(lia)). lra. }
    apply S. intros l Hl. destruct (Nat.ltb_spec j l); [|nra]. pose proof (HT4 l ltac:(lia)) as B. pose proof (mul_bound _ _ _ _ B B) as B2. rewrite Rabs_pos_eq in B2 by nra. exact B2.
  - eapply Rle_trans; [apply HT3; lia|]. apply Rmult_le_compat_l; [exact M0|]. apply Rplus_le_compat_l, gam_mono, Nat.mul_le_mono_l. exact LT.
Qed.
Lemma qr_loops : (n <= m)%nat -> exists st, for_loop 0 n (fun j st => for_loop_rev (j + 1) m (@qr_step f64 F64_ops (F64_pops pw) j) st) (I0, A) = Ret st /\ LI n m st.
Proof.
  intro Hnm. apply (for_loop_ind (fun j st => LI j m st)).
  - lia.
  - exists idt, a0. cbn [fst snd]. split; [|split; [exact HA|split; [|split; [|split]]]].
    + destruct (mone_spec (T := f64) m) as (I1 & E1 & H1). rewrite HI0 in E1. injection E1 as <-. exact H1.
    + rewrite Nat.sub_diag. exact Inv_0.
    + unfold pre. rewrite Nat.sub_diag. reflexivity.
    + intros c Hc. lia.
    + intros _ l Hl. lia.
  - intros j st Hj HL.
    destruct (for_loop_rev_ind (fun i st => LI j i st) (@qr_step f64 F64_ops (F64_pops pw) j) (j + 1) m st) as (st' & E & H').
    + lia.
    + exact HL.
    + intros i s Hi Hs. apply LI_step; [lia|exact Hi|exact Hs].
    + exists st'. split; [exact E|]. apply LI_next; [lia|exact Hnm|exact H'].
Qed.
End Run.

Lemma qr_f64 pw k (A : matrix f64) m n a W : sqrt_good k (fun x => pw x (@half f64 (F64_pops pw))) ->
  is_mat A m n a -> (n <= m)%nat -> (0 < m)%nat -> gam ((k + 16) * (m * n)) <= / 100 ->
  (forall l y, (l < m)%nat -> (y < n)%nat -> good (a l y)) ->
  (forall y, (y < n)%nat -> bpow radix2 (-900) <= W y <= bpow radix2 500 /\ rsum m (fun l => fval (a l y) * fval (a l y)) <= W y * W y) ->
  qr_pairs pw A pair_large ->
  exists Q Rm q r, @dec_qr f64 F64_ops (F64_pops pw) A = Ret (Q, Rm) /\ is_mat Q m m q /\ is_mat Rm m n r /\
    (forall x l, (x < m)%nat -> (l < m)%nat -> good (q x l)) /\ (forall l y, (l < m)%nat -> (y < n)%nat -> good (r l y)) /\
    (forall x y, (x < m)%nat -> (y < m)%nat -> Rabs (rsum m (fun l => fval (q x l) * fval (q y l)) - (if (x =? y)%nat then 1 else 0)) <= gam ((k + 16) * (m * n))) /\
    (forall x y, (x < m)%nat -> (y < n)%nat -> Rabs (rsum m (fun l => fval (q x l) * fval (r l y)) - fval (a x y)) <= gam ((k + 16) * (m * n)) * W y) /\
    (qr_pairs pw A pair_eliminated -> forall y, (y < n)%nat ->
       rsum m (fun l => if (y <? l)%nat then fval (r l y) ^ 2 else 0) <= 2 * INR m * (4 * uro * W y) ^ 2).
Proof.
  intros SQ HA Hnm Hm HN Ga HW PL. destruct (mone_spec (T := f64) m) as (I0 & EI & HI0).
  destruct (qr_loops pw k m n a W SQ HN HW Ga A I0 HA EI PL Hnm) as (st & E & fq & fr & Hq & Hr & HI & _ & HT).
  replace (n * m + (m - m))%nat with (m * n)%nat in * by lia.
  destruct (mtranspose_good (fst st) m m fq Hm Hm (or_introl eq_refl) Hq) as (Q & EQ & HQ).
  exists Q, (snd st), (fun i j => fq j i), fr. split.
  { unfold dec_qr. rewrite (is_mat_rows A m n a HA), (is_mat_cols A m n a HA), (proj2 (Nat.leb_le n m) Hnm). cbn [rassert bind]. rewrite EI. cbn [bind]. rewrite E. cbn [bind]. rewrite EQ. reflexivity. }
  destruct HI as (G & D). split; [exact HQ|]. split; [exact Hr|].
  assert (LT : forall x, (x < m)%nat -> (x <? m)%nat = true) by (intros; apply Nat.ltb_lt; assumption).
  assert (GE : forall y, (m + y <? m)%nat = false) by (intro y; apply Nat.ltb_ge; lia).
  assert (SB : forall y, (m + y - m)%nat = y) by (intro y; lia).
  split; [intros x l Hx Hl; specialize (G x l ltac:(lia) Hl); unfold ent in G; rewrite LT in G by exact Hx; exact G|].
  split; [intros l y Hl Hy; specialize (G (m + y)%nat l ltac:(lia) Hl); unfold ent in G; rewrite GE, SB in G; exact G|].
  split; [|split].
  - intros x y Hx Hy. specialize (D x y ltac:(lia) ltac:(lia)). rewrite cdot0_qq in D by assumption. unfold cdot, ent, wt in D. rewrite !LT in D by assumption. rewrite !Rmult_1_r in D. exact D.
  - intros x y Hx Hy. specialize (D x (m + y)%nat ltac:(lia) ltac:(lia)). rewrite (cdot0_qr m n a x y Hx Hy) in D. unfold cdot, ent, wt in D. rewrite LT, GE, SB, Rmult_1_l in D by assumption. exact D.
  - intros PE y Hy. destruct (HT PE) as (HT3 & _). specialize (HT3 y Hy). unfold tail, zeta in HT3.
    rewrite (sumn_ext m _ (fun l => if (y <? l)%nat then fval (fr l y) * fval (fr l y) else 0)) by (intros l _; destruct (y <? l)%nat; [ring|reflexivity]).
    eapply Rle_trans; [exact HT3|]. replace (2 * INR m * (4 * uro * W y) ^ 2) with (INR m * (4 * uro * W y * (4 * uro * W y)) * 2) by ring.
    apply Rmult_le_compat_l; [|lra]. apply Rmult_le_pos; [apply pos_INR|nra].
Qed.
