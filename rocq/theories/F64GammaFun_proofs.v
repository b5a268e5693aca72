(** The gamma and beta functions in binary64: the whole functions. *)
From Coq Require Import Arith Lia List Bool ZArith Reals Lra Psatz SpecFloat.
From Flocq Require Import Core IEEE754.BinarySingleNaN.
From Verif Require Import Outcome Scalar RealOps Elem_model Int_model Ode_model Special_model Special_spec Stat_spec F64_spec F64Cplx_spec F64Gamma_spec
  Discrete_proofs OdeOrder_proofs Special_proofs GammaFun_proofs Stirling_proofs Lanczos_proofs LanczosAcc_proofs LnGammaAcc_proofs Reflection_proofs BetaAcc_proofs GammaAll_proofs BetaAcc_proofs
  F64Flocq F64Err_proofs F64Grid_proofs F64Euler_proofs F64QR_proofs F64QREx_proofs F64Term_proofs F64Lin_proofs F64Gamma_proofs.
Local Open Scope R_scope.

(** ** Powers and exponentials of perturbed arguments *)
Lemma near_exp c p q : Rabs (p - q) <= c -> near c (exp p) (exp q).
Proof.
  intros H. assert (B : - c <= p - q <= c) by (revert H; unfold Rabs; destruct Rcase_abs; lra).
  split; [apply exp_pos|]. rewrite <- !exp_plus. split; apply exp_mono; lra.
Qed.
Lemma ln_mono a b : 0 < a -> a <= b -> ln a <= ln b.
Proof. intros Ha [H| ->]; [left; now apply ln_increasing|lra]. Qed.
Lemma near_ln c x y : near c x y -> Rabs (ln x - ln y) <= c.
Proof.
  intros N. pose proof (near_pos _ _ _ N) as (X & Y). destruct N as (_ & A & B). pose proof (exp_pos c) as P. pose proof (exp_pos (- c)) as Q.
  apply ln_mono in A; [|now apply Rmult_lt_0_compat]. apply ln_mono in B; [|exact X]. rewrite ln_mult, ln_exp in A, B by assumption. apply Rabs_le. lra.
Qed.
Lemma near_power c d l e e' t T : near c t T -> Rabs (e' - e) <= d -> Rabs (ln t) <= l -> near (d * l + Rabs e * c) (Rpower t e') (Rpower T e).
Proof.
  intros N Hd Hl. apply near_exp. pose proof (near_ln _ _ _ N) as H. replace (e' * ln t - e * ln T) with ((e' - e) * ln t + e * (ln t - ln T)) by ring.
  eapply Rle_trans; [apply Rabs_triang|]. rewrite !Rabs_mult. apply Rplus_le_compat; apply Rmult_le_compat; try apply Rabs_pos; try assumption. lra.
Qed.
Lemma exp_nat n y : exp (INR n * y) = exp y ^ n.
Proof. induction n as [|n IH]; [cbn [INR pow]; rewrite Rmult_0_l; apply exp_0|]. rewrite S_INR, Rmult_plus_distr_r, Rmult_1_l, exp_plus, IH. cbn [pow]. ring. Qed.
Lemma ln_le_6 t : 0 < t -> t <= 200 -> ln t <= 6.
Proof.
  intros H0 H. rewrite <- (ln_exp 6). apply ln_mono; [exact H0|]. apply Rle_trans with ((5 / 4) ^ 24); [simpl; lra|].
  replace (exp 6) with (exp (1 / 4) ^ 24). 2: { rewrite <- exp_nat. f_equal. simpl. lra. } apply pow_incr. pose proof (exp_ineq1_le (1 / 4)). lra.
Qed.
Lemma exp_two : 2 <= exp 1 <= 4.
Proof. pose proof (exp_ineq1_le 1). pose proof exp_le_3. lra. Qed.

(** ** Size of the factors *)
Lemma pow_size x : 49 / 100 <= x <= 141 -> / 2 <= Rpower (x + 13 / 2) (x - 1 / 2) <= bpow radix2 1019 /\
  bpow radix2 (-300) <= Rpower (x + 13 / 2) (x - 1 / 2) * exp (- (x + 13 / 2)) <= bpow radix2 945.
Proof.
  intros Hx. set (T := x + 13 / 2). assert (HT : 699 / 100 <= T <= 295 / 2) by (unfold T; lra).
  assert (L6 : ln T <= 6) by (apply ln_le_6; lra). assert (L0 : 0 <= ln T) by (rewrite <- ln_1; apply ln_mono; lra).
  assert (L2 : 0 < ln 2) by (rewrite <- ln_1; apply ln_increasing; lra).
  assert (L7 : ln T <= 29 / 4 * ln 2).
  { assert (4 * ln T <= 29 * ln 2); [|lra]. replace (4 * ln T) with (ln (T ^ 4)). 2: { rewrite ln_pow by lra. simpl. lra. } replace (29 * ln 2) with (ln (2 ^ 29)). 2: { rewrite ln_pow by lra. simpl. lra. }
    apply ln_mono; [apply pow_lt; lra|]. apply Rle_trans with ((295 / 2) ^ 4); [apply pow_incr; lra|simpl; lra]. }
  assert (BP : forall e, bpow radix2 e = exp (IZR e * ln 2)) by (intro e; rewrite bpow_exp; reflexivity).
  assert (Lo : / 2 <= Rpower T (x - 1 / 2)).
  { unfold Rpower. apply Rle_trans with (exp (- (1 / 2))). - pose proof (exp_ineq1_le (- (1 / 2))). lra. - apply exp_mono. assert (- (1 / 100) * ln T <= (x - 1 / 2) * ln T) by (apply Rmult_le_compat_r; lra). lra. }
  assert (Up : Rpower T (x - 1 / 2) <= bpow radix2 1019).
  { rewrite BP. apply exp_mono. destruct (Rle_lt_dec 0 (x - 1 / 2)) as [P|P].
    - apply Rle_trans with (281 / 2 * (29 / 4 * ln 2)); [apply Rmult_le_compat; lra|lra].
    - apply Rle_trans with 0; [|lra]. assert (- (x - 1 / 2) * ln T >= 0) by (apply Rle_ge, Rmult_le_pos; lra). lra. }
  split; [split; assumption|]. assert (LT : ln 2 <= 1). { apply Rle_trans with (ln (exp 1)); [apply ln_mono; [lra|apply exp_two]|rewrite ln_exp; lra]. }
  assert (LT2 : / 2 <= ln 2). { pose proof ln_lt_2. lra. }
  assert (Ex : exp (- T) <= bpow radix2 0) by (rewrite BP; apply exp_mono; lra). split.
  - apply Rle_trans with (/ 2 * bpow radix2 (-299)); [assert (B : bpow radix2 (-299) = 2 * bpow radix2 (-300)) by (change (-299)%Z with (1 + -300)%Z; rewrite bpow_plus; reflexivity); lra|].
    apply Rmult_le_compat; [lra|apply bpow_ge_0|exact Lo|]. rewrite BP. apply exp_mono. assert (- 299 * ln 2 <= - 299 * / 2) by lra. lra.
  - destruct (Rle_lt_dec x 70) as [H|H].
    + apply Rle_trans with (bpow radix2 945 * bpow radix2 0); [|rewrite <- bpow_plus; apply bpow_le; lia].
      apply Rmult_le_compat; [left; apply exp_pos|left; apply exp_pos| |exact Ex]. rewrite BP. apply exp_mono. destruct (Rle_lt_dec 0 (x - 1 / 2)) as [P|P].
      * apply Rle_trans with (70 * (29 / 4 * ln 2)); [apply Rmult_le_compat; lra|lra].
      * apply Rle_trans with 0; [|lra]. assert (- (x - 1 / 2) * ln T >= 0) by (apply Rle_ge, Rmult_le_pos; lra). lra.
    + apply Rle_trans with (bpow radix2 1019 * bpow radix2 (-76)); [|rewrite <- bpow_plus; apply bpow_le; lia].
      apply Rmult_le_compat; [left; apply exp_pos|left; apply exp_pos|exact Up|]. rewrite BP. apply exp_mono. unfold T. lra.
Qed.
Lemma sum_size x : 49 / 100 <= x -> / 100 <= lanczos_sum x <= 4000.
Proof.
  intros Hx. assert (X0 : 0 < x) by lra. pose proof (lz_abs_bound x X0) as B. unfold lz_abs in B.
  assert (I : forall i, 0 <= i -> 0 < / (x + i) <= / (49 / 100 + i)) by (intros i Hi; split; [apply Rinv_0_lt_compat; lra|apply Rinv_le_contravar; lra]).
  pose proof (I 0 ltac:(lra)) as I0. rewrite Rplus_0_r in I0. pose proof (I 1 ltac:(lra)) as I1. pose proof (I 2 ltac:(lra)) as I2. pose proof (I 3 ltac:(lra)) as I3. pose proof (I 4 ltac:(lra)) as I4.
  pose proof (I 5 ltac:(lra)) as I5. pose proof (I 6 ltac:(lra)) as I6. pose proof (I 7 ltac:(lra)) as I7.
  unfold Rdiv in B. split; [lra|]. unfold lanczos_sum. rewrite !lit_R. rops. unfold Rdiv. rewrite !Rinv_1, !Rmult_1_r. lra.
Qed.

(** ** The Lanczos approximation of Euler's integral, from 0.49 *)
Lemma lanczos_true z g : 49 / 100 <= z -> euler_gamma z g -> near (34 / 10000000000000) (lanczos z) g.
Proof.
  intros Hz Hg. pose proof (euler_gamma_pos _ _ Hg) as Pg. rewrite lz_F by lra. rewrite <- (exp_ln g Pg) at 1. apply near_exp.
  pose proof (la_accuracy lz_N 8 (13 / 2) 8 7 (202 / 10000000000000) (1 / 2 * ln (2 * PI) - 13 / 2) (ln (99999999999980993 / 100000000000000000)) lanczos_sum) as A.
  assert (B : Rabs (la_F (13 / 2) (1 / 2 * ln (2 * PI) - 13 / 2) lanczos_sum z - ln g
                 - (1 / 2 * ln (2 * PI) - 13 / 2 + 13 / 2 + ln (99999999999980993 / 100000000000000000) - 1 / 2 * ln (2 * PI)))
              <= 202 / 10000000000000 / (z + 7 - 1)).
  { apply A; clear A; try lra; try assumption.
    - exact lz_n_pos.
    - intros t Ht. apply pe_deg_of; [reflexivity|reflexivity|assumption].
    - exact lz_S_ln.
    - exact lz_lim.
    - intros t Ht. pose proof (ck_bound lz_N 13 2 14 8 7 1212 10000000000000 lz_n_pos t lz_ck Ht) as C.
      replace (6 * (202 / 10000000000000)) with (1212 / 10000000000000) by field. exact C. }
  clear A. replace (1 / 2 * ln (2 * PI) - 13 / 2 + 13 / 2 + ln (99999999999980993 / 100000000000000000) - 1 / 2 * ln (2 * PI))
    with (ln (99999999999980993 / 100000000000000000)) in B by ring.
  assert (L1 : - (191 / 1000000000000000) <= ln (99999999999980993 / 100000000000000000) <= 0).
  { split.
    - pose proof (ln_le_sub1 (/ (99999999999980993 / 100000000000000000)) ltac:(apply Rinv_0_lt_compat; lra)) as X.
      rewrite ln_Rinv in X by lra. replace (/ (99999999999980993 / 100000000000000000)) with (100000000000000000 / 99999999999980993) in X by field. lra.
    - pose proof (ln_le_sub1 (99999999999980993 / 100000000000000000) ltac:(lra)). lra. }
  assert (L2 : 202 / 10000000000000 / (z + 7 - 1) <= 202 / 10000000000000 * (100 / 649)).
  { unfold Rdiv at 1. apply Rmult_le_compat_l; [lra|]. replace (100 / 649) with (/ (649 / 100)) by field. apply Rinv_le_contravar; lra. }
  apply Coquelicot.Rcomplements.Rabs_le_between in B. apply Rabs_le. lra.
Qed.
Lemma lanczos_size x : 49 / 100 <= x <= 141 -> bpow radix2 (-307) <= lanczos x <= bpow radix2 959.
Proof.
  intros Hx. destruct (pow_size x Hx) as (_ & W3 & W4). pose proof (sum_size x ltac:(lra)) as SS. pose proof PI2_3_2 as P3. pose proof PI_4 as P4.
  assert (R2 : 1 <= sqrt 2 <= 2). { split; [rewrite <- sqrt_1|replace 2 with (sqrt 4) at 2 by (replace 4 with (2 * 2) by ring; apply sqrt_square; lra)]; apply sqrt_le_1_alt; lra. }
  assert (RP : 1 <= sqrt PI <= 2). { split; [rewrite <- sqrt_1|replace 2 with (sqrt 4) by (replace 4 with (2 * 2) by ring; apply sqrt_square; lra)]; apply sqrt_le_1_alt; lra. }
  assert (R2P : 1 <= sqrt 2 * sqrt PI <= 4) by (split; [rewrite <- (Rmult_1_l 1)|replace 4 with (2 * 2) by ring]; apply Rmult_le_compat; lra).
  assert (EL : lanczos x = (Rpower (x + 13 / 2) (x - 1 / 2) * exp (- (x + 13 / 2))) * (sqrt 2 * sqrt PI * lanczos_sum x)).
  { unfold lanczos. rewrite !lit_R. rops. rewrite R_pow_pos by lra. replace (2 / 1) with 2 by field. ring. }
  rewrite EL. assert (K : / 100 <= sqrt 2 * sqrt PI * lanczos_sum x <= 16000).
  { split; [rewrite <- (Rmult_1_l (/ 100))|replace 16000 with (4 * 4000) by ring]; apply Rmult_le_compat; lra. }
  pose proof (bpow_gt_0 radix2 (-300)) as B0. split.
  - apply Rle_trans with (bpow radix2 (-300) * / 128); [|apply Rmult_le_compat; lra]. change (-300)%Z with (7 + -307)%Z. rewrite bpow_plus. change (bpow radix2 7) with 128. lra.
  - apply Rle_trans with (bpow radix2 945 * 16384); [apply Rmult_le_compat; lra|]. change 959%Z with (14 + 945)%Z. rewrite bpow_plus. change (bpow radix2 14) with 16384. lra.
Qed.
(** The sine on (0, 1.6]. *)
Lemma PI_up : 3 < PI < 315 / 100.
Proof. destruct PI_bounds as [A B]. unfold Q2R, pi_lo, pi_hi in *. cbn [QArith_base.Qnum QArith_base.Qden] in *. lra. Qed.
Lemma sin_lower X : 0 < X <= 16 / 10 -> 46 / 100 * X <= sin X.
Proof.
  intros H. pose proof PI_up as P. set (t := X / 2). assert (Ht : 0 < t <= 8 / 10) by (unfold t; lra). replace X with (2 * t) by (unfold t; lra). rewrite sin_2a.
  assert (T : t * cos t <= sin t) by (apply tcos_le_sin; lra).
  assert (C : 68 / 100 <= cos t).
  { replace t with (2 * (t / 2)) by field. rewrite cos_2a_sin. assert (S1 : sin (t / 2) < t / 2) by (apply sin_lt_x; lra). assert (S0 : 0 < sin (t / 2)) by (apply sin_gt_0; lra).
    assert (sin (t / 2) * sin (t / 2) <= 4 / 10 * (4 / 10)) by (apply Rmult_le_compat; lra). lra. }
  assert (t * cos t * cos t <= sin t * cos t) by (apply Rmult_le_compat_r; lra). assert (t * (68 / 100 * (68 / 100)) <= t * (cos t * cos t)) by (apply Rmult_le_compat_l; [lra|apply Rmult_le_compat; lra]). lra.
Qed.
Lemma sin_lip a b : Rabs (sin a - sin b) <= Rabs (a - b).
Proof.
  assert (S : forall t, Rabs (sin t) <= Rabs t).
  { assert (Sp : forall t, 0 < t -> Rabs (sin t) <= t).
    { intros t Ht. destruct (Rle_lt_dec 1 t) as [H1|H1]; [apply Rle_trans with 1; [apply Rabs_le, SIN_bound|exact H1]|].
      pose proof PI_up. rewrite Rabs_pos_eq; [left; now apply sin_lt_x|left; apply sin_gt_0; lra]. }
    intros t. destruct (Rtotal_order t 0) as [H|[->|H]]; [|rewrite sin_0; lra|rewrite (Rabs_pos_eq t) by lra; now apply Sp].
    replace t with (- - t) by ring. rewrite sin_neg, !Rabs_Ropp, (Rabs_left t) by exact H. apply Sp. lra. }
  rewrite form4. rewrite !Rabs_mult, (Rabs_pos_eq 2) by lra. pose proof (S ((a - b) / 2)) as H1. assert (H2 : Rabs (cos ((a + b) / 2)) <= 1) by (apply Rabs_le, COS_bound).
  unfold Rdiv in H1. rewrite Rabs_mult, (Rabs_pos_eq (/ 2)) in H1 by lra.
  assert (2 * Rabs (cos ((a + b) / 2)) * Rabs (sin ((a - b) / 2)) <= 2 * 1 * (Rabs (a - b) * / 2)) by (apply Rmult_le_compat; [apply Rmult_le_pos; [lra|apply Rabs_pos]|apply Rabs_pos|apply Rmult_le_compat_l; lra|exact H1]). lra.
Qed.

Section Libm.
Variables (pw : f64 -> f64 -> f64) (E : EOps f64) (a : R).
Hypotheses (Ha : 0 <= a <= 1000) (HL : libm_acc a pw E).
#[local] Existing Instance E.
#[local] Instance PP : POps f64 := F64_pops pw.
Lemma au_b : 0 <= a * uro <= / 1000000000000.
Proof. pose proof uro_b as U. split; [apply Rmult_le_pos; lra|]. assert (a * uro <= 1000 * / 1000000000000000) by (apply Rmult_le_compat; lra). lra. Qed.
Lemma acc_near v w : 0 < w -> Rabs (v - w) <= a * uro * w -> near (102 / 100 * (a * uro)) v w.
Proof. intros W H. pose proof au_b. apply near_rel; [lra|exact W|exact H]. Qed.
Lemma pi_near : fnear (14 / 10 * uro) (@tpi f64 E) PI.
Proof.
  destruct HL as (_ & _ & _ & G & H). split; [exact G|]. pose proof uro_b as U. pose proof PI2_3_2 as P3. assert (3 < PI) by lra.
  apply (near_le (102 / 100 * (4 / 3 * uro))); [|lra]. apply near_rel; [lra|lra|]. eapply Rle_trans; [exact H|].
  assert (4 / 3 * uro * 3 <= 4 / 3 * uro * PI) by (apply Rmult_le_compat_l; lra). lra.
Qed.
Lemma sqrt_near (y : f64) c Y : fnear c y Y -> 0 <= c <= / 1000 -> 1 <= Y <= 4 -> fnear (102 / 100 * (a * uro) + c) (tsqrt y) (sqrt Y).
Proof.
  intros (G & N) Hc HY. destruct HL as (HP & _). pose proof (near_range c _ _ ltac:(lra) N) as Rg. pose proof (near_pos _ _ _ N) as (Y0 & _).
  assert (Nh : near (0 * 2 + Rabs (1 / 2) * c) (Rpower (fval y) (1 / 2)) (Rpower Y (1 / 2))).
  { apply near_power; [exact N|rewrite Rminus_diag_eq, Rabs_R0 by reflexivity; lra|]. apply Rabs_le. split.
    - apply Rle_trans with (ln (exp (- (1 + 1)))); [rewrite ln_exp; lra|]. apply ln_mono; [apply exp_pos|]. rewrite exp_Ropp. pose proof (exp_ineq1_le (1 + 1)). apply Rle_trans with (/ 3); [apply Rinv_le_contravar; lra|lra].
    - apply Rle_trans with (ln (exp 2)); [apply ln_mono; [exact Y0|]|rewrite ln_exp; lra].
      replace 2 with (1 / 4 + 1 / 4 + 1 / 4 + 1 / 4 + 1 / 4 + 1 / 4 + 1 / 4 + 1 / 4) by field. rewrite !exp_plus. pose proof (exp_ineq1_le (1 / 4)) as Q.
      apply Rle_trans with ((5 / 4) ^ 8); [simpl; lra|]. replace (exp (1 / 4) * exp (1 / 4) * exp (1 / 4) * exp (1 / 4) * exp (1 / 4) * exp (1 / 4) * exp (1 / 4) * exp (1 / 4)) with (exp (1 / 4) ^ 8) by ring. apply pow_incr. lra. }
  assert (EY : Rpower Y (1 / 2) = sqrt Y) by (replace (1 / 2) with (/ 2) by field; apply Rpower_sqrt; lra). rewrite EY in Nh.
  assert (SY : 1 <= sqrt Y <= 2). { split; [rewrite <- sqrt_1|replace 2 with (sqrt 4) by (replace 4 with (2 * 2) by ring; apply sqrt_square; lra)]; apply sqrt_le_1_alt; lra. }
  rewrite (Rabs_pos_eq (1 / 2)) in Nh by lra. pose proof (near_range (0 * 2 + 1 / 2 * c) _ _ ltac:(lra) Nh) as R2.
  destruct num12 as (Gh & Eh). assert (Hf : S754_finite false 4503599627370496 (-53) = lit 1 2) by (vm_compute; reflexivity).
  destruct (HP y (lit 1 2) G Gh Y0) as (Gr & Er).
  { rewrite Eh. replace (/ 2) with (1 / 2) by field. split; [apply Rle_trans with (bpow radix2 (-1)); [apply bpow_le; lia|change (bpow radix2 (-1)) with (/ 2); lra]|apply Rle_trans with (bpow radix2 3); [change (bpow radix2 3) with 8; lra|apply bpow_le; lia]]. }
  change (tsqrt y) with (pw y (S754_finite false 4503599627370496 (-53))). rewrite Hf. split; [exact Gr|]. rewrite Eh in Er. replace (/ 2) with (1 / 2) in Er by field.
  apply (near_le (102 / 100 * (a * uro) + (0 * 2 + 1 / 2 * c))); [|lra]. eapply near_trans; [eapply acc_near; [|exact Er]; lra|exact Nh].
Qed.

Section At.
Variables (z : f64) (x : R).
Hypotheses (Gz : fgood z) (Hx : 49 / 100 <= x <= 141) (Hz : Rabs (fval z - x) <= 21 / 10 * uro * x).
Lemma power_near : fnear (102 / 100 * (a * uro) + 3120 * uro) (tpow (add z (lit 13 2)) (sub z (lit 1 2))) (Rpower (x + 13 / 2) (x - 1 / 2)).
Proof.
  pose proof uro_b as U. pose proof (z_rng z x Hx Hz) as ZR. destruct num132 as (G13 & E13). destruct num12 as (Gh & Eh).
  destruct (shift_near z x Gz Hx Hz (lit 13 2) (13 / 2) G13 E13 ltac:(lra)) as (Gt & Nt). set (t := add z (lit 13 2)) in *. set (T := x + 13 / 2) in *.
  assert (HT : 699 / 100 <= T <= 295 / 2) by (unfold T; lra). pose proof (near_range (320 / 100 * uro) _ _ ltac:(lra) Nt) as Rt.
  destruct Gz as (Vz & Fz). destruct Gh as (Vh & Fh). pose proof big23 as B23. destruct (fsub_ok z (lit 1 2) Vz Vh Fz Fh) as (Ve & Fe & Ee). { rewrite Eh. apply Rabs_le. lra. }
  rewrite Eh in Ee. set (e := sub z (lit 1 2)) in *.
  assert (De : Rabs (fval e - (x - 1 / 2)) <= 312 / 100 * uro * 141).
  { replace (fval e - (x - 1 / 2)) with ((fval e - (fval z - / 2)) + (fval z - x)) by lra. eapply Rle_trans; [apply Rabs_triang|].
    assert (Rabs (fval z - / 2) <= 141) by (apply Rabs_le; lra). assert (uro * Rabs (fval z - / 2) <= uro * 141) by (apply Rmult_le_compat_l; lra). assert (uro * x <= uro * 141) by (apply Rmult_le_compat_l; lra). lra. }
  assert (Lt : Rabs (ln (fval t)) <= 6). { rewrite Rabs_pos_eq; [apply ln_le_6; lra|]. rewrite <- ln_1. apply ln_mono; lra. }
  pose proof (near_power _ _ _ _ _ _ _ Nt De Lt) as NP. assert (Ae : Rabs (x - 1 / 2) <= 141) by (apply Rabs_le; lra).
  assert (NP' : near (3120 * uro) (Rpower (fval t) (fval e)) (Rpower T (x - 1 / 2))).
  { eapply near_le; [exact NP|]. assert (Rabs (x - 1 / 2) * (320 / 100 * uro) <= 141 * (320 / 100 * uro)) by (apply Rmult_le_compat_r; lra). lra. }
  destruct (pow_size x Hx) as ((S1 & S2) & _). fold T in S1, S2. pose proof (near_range (3120 * uro) _ _ ltac:(lra) NP') as Rp.
  destruct HL as (HP & _). destruct (HP t e Gt (conj Ve Fe)) as (Gr & Er); [lra| |].
  { assert (B : bpow radix2 1020 = 2 * bpow radix2 1019) by (change 1020%Z with (1 + 1019)%Z; rewrite bpow_plus; reflexivity). pose proof (bpow_gt_0 radix2 1019).
    split; [apply Rle_trans with (bpow radix2 (-2)); [apply bpow_le; lia|change (bpow radix2 (-2)) with (/ 4); lra]|lra]. }
  change (tpow t e) with (pw t e). split; [exact Gr|]. eapply near_trans; [eapply acc_near; [|exact Er]; lra|exact NP'].
Qed.
Lemma expo_near : fnear (102 / 100 * (a * uro) + 460 * uro) (texp (neg (add z (lit 13 2)))) (exp (- (x + 13 / 2))).
Proof.
  pose proof uro_b as U. pose proof (z_rng z x Hx Hz) as ZR. destruct num132 as (G13 & E13).
  destruct (shift z x Gz Hx Hz (lit 13 2) (13 / 2) G13 E13 ltac:(lra)) as (Gt & Dt). set (t := add z (lit 13 2)) in *. set (T := x + 13 / 2) in *.
  assert (HT : 699 / 100 <= T <= 295 / 2) by (unfold T; lra). assert (Dt' : Rabs (fval t - T) <= 460 * uro).
  { eapply Rle_trans; [exact Dt|]. assert (311 / 100 * uro * T <= 311 / 100 * uro * (295 / 2)) by (apply Rmult_le_compat_l; lra). lra. }
  destruct (fneg_good t Gt) as (Gn & En). destruct HL as (_ & HE & _). destruct (HE (neg t) Gn) as (Gr & Er). { rewrite En, Rabs_Ropp. revert Dt'. unfold Rabs. repeat destruct Rcase_abs; lra. }
  split; [exact Gr|]. eapply near_trans; [eapply acc_near; [|exact Er]; apply exp_pos|]. apply near_exp. rewrite En. replace (- fval t - - T) with (- (fval t - T)) by ring. now rewrite Rabs_Ropp.
Qed.
Lemma lanczos_near : fnear (408 / 100 * (a * uro) + 4870 * uro) (lanczos z) (lanczos x).
Proof.
  pose proof uro_b as U. pose proof au_b as A.
  assert (N2 : fnear 0 (lit 2 1) 2). { destruct num2 as (G & Ev). split; [exact G|]. rewrite Ev. apply near_refl. lra. }
  pose proof (sqrt_near _ _ _ N2 ltac:(lra) ltac:(lra)) as S2. pose proof PI2_3_2 as P3. pose proof PI_4 as P4.
  pose proof (sqrt_near _ _ _ pi_near ltac:(lra) ltac:(lra)) as SP.
  assert (R2 : 1 <= sqrt 2 <= 2). { split; [rewrite <- sqrt_1|replace 2 with (sqrt 4) at 2 by (replace 4 with (2 * 2) by ring; apply sqrt_square; lra)]; apply sqrt_le_1_alt; lra. }
  assert (RP : 1 <= sqrt PI <= 2). { split; [rewrite <- sqrt_1|replace 2 with (sqrt 4) by (replace 4 with (2 * 2) by ring; apply sqrt_square; lra)]; apply sqrt_le_1_alt; lra. }
  assert (R2P : 1 <= sqrt 2 * sqrt PI <= 4) by (split; [rewrite <- (Rmult_1_l 1)|replace 4 with (2 * 2) by ring]; apply Rmult_le_compat; lra).
  pose proof tiny40 as T40. pose proof big20 as B20.
  pose proof (fnear_mul _ _ _ _ _ _ S2 SP ltac:(lra) ltac:(lra) ltac:(lra) ltac:(lra)) as M1.
  destruct (pow_size x Hx) as ((W1 & W2) & W3 & W4). set (W := Rpower (x + 13 / 2) (x - 1 / 2)) in *. set (Q := exp (- (x + 13 / 2))) in *.
  assert (Q0 : 0 < Q) by apply exp_pos. pose proof (sum_size x ltac:(lra)) as SS.
  assert (BB : forall e, bpow radix2 (2 + e) = 4 * bpow radix2 e) by (intro e; rewrite bpow_plus; reflexivity).
  assert (BB12 : forall e, bpow radix2 (12 + e) = 4096 * bpow radix2 e) by (intro e; rewrite bpow_plus; reflexivity).
  assert (BB7 : forall e, bpow radix2 (7 + e) = 128 * bpow radix2 e) by (intro e; rewrite bpow_plus; reflexivity).
  assert (M2 : fnear (102 / 100 * (a * uro) + 0 + (102 / 100 * (a * uro) + 14 / 10 * uro) + 103 / 100 * uro + (102 / 100 * (a * uro) + 3120 * uro) + 103 / 100 * uro)
    (mul (mul (tsqrt (lit 2 1)) (tsqrt tpi)) (tpow (add z (lit 13 2)) (sub z (lit 1 2)))) (sqrt 2 * sqrt PI * W)).
  { apply fnear_mul; [exact M1|exact power_near|lra|lra|lra|]. split.
    - apply Rle_trans with (1 * / 2); [lra|apply Rmult_le_compat; lra].
    - apply Rle_trans with (4 * bpow radix2 1019); [apply Rmult_le_compat; lra|]. rewrite <- BB. apply bpow_le. lia. }
  assert (V3 : bpow radix2 (-300) <= sqrt 2 * sqrt PI * W * Q <= bpow radix2 947).
  { rewrite Rmult_assoc. split.
    - rewrite <- (Rmult_1_l (bpow radix2 (-300))). apply Rmult_le_compat; [lra|apply bpow_ge_0|lra|exact W3].
    - change 947%Z with (2 + 945)%Z. rewrite BB. apply Rmult_le_compat; [lra|apply Rmult_le_pos; lra|lra|exact W4]. }
  assert (M3 : fnear (408 / 100 * (a * uro) + 3585 * uro)
    (mul (mul (mul (tsqrt (lit 2 1)) (tsqrt tpi)) (tpow (add z (lit 13 2)) (sub z (lit 1 2)))) (texp (neg (add z (lit 13 2))))) (sqrt 2 * sqrt PI * W * Q)).
  { eapply fnear_le; [apply (fnear_mul _ _ _ _ _ _ M2 expo_near); [lra|lra|lra|]|lra].
    split; [eapply Rle_trans; [|exact (proj1 V3)]; apply bpow_le; lia|eapply Rle_trans; [exact (proj2 V3)|apply bpow_le; lia]]. }
  assert (EL : lanczos x = sqrt 2 * sqrt PI * W * Q * lanczos_sum x).
  { unfold lanczos, W, Q. rewrite !lit_R. rops. rewrite R_pow_pos by lra. replace (2 / 1) with 2 by field. reflexivity. }
  rewrite EL. eapply fnear_le; [apply (fnear_mul _ _ _ _ _ _ M3 (sum_f64 z x Gz Hx Hz)); [lra|lra|lra|]|lra].
  split.
  - apply Rle_trans with (bpow radix2 (-300) * / 128); [|apply Rmult_le_compat; [apply bpow_ge_0|lra|exact (proj1 V3)|lra]].
    change (-300)%Z with (7 + -307)%Z. rewrite BB7. replace (128 * bpow radix2 (-307) * / 128) with (bpow radix2 (-307)) by field. apply bpow_le. lia.
  - apply Rle_trans with (bpow radix2 947 * 4096); [apply Rmult_le_compat; [eapply Rle_trans; [apply bpow_ge_0|exact (proj1 V3)]|lra|exact (proj2 V3)|lra]|].
    rewrite Rmult_comm, <- BB12. apply bpow_le. lia.
Qed.
End At.

(** ** The gamma function *)
Definition Kg : R := 34 / 10000000000000 + 52 / 10 * (a * uro) + 4900 * uro.
Lemma Kg_b : 0 <= Kg <= / 100000000.
Proof. unfold Kg. pose proof uro_b. pose proof au_b. lra. Qed.
Lemma gamma_near_hi (z : f64) (x g : R) : fgood z -> Rabs (fval z - x) <= 21 / 10 * uro * x -> / 2 <= fval z -> x <= 141 -> euler_gamma x g ->
  sgamma z = Ret (lanczos z) /\ fnear Kg (lanczos z) g.
Proof.
  intros Gz Hz Hi Hx Hg. pose proof uro_b as U. pose proof au_b as A. pose proof Gz as (Vz & Fz). destruct num12 as ((Vh & Fh) & Eh).
  assert (X49 : 49 / 100 <= x). { destruct (Rle_lt_dec (49 / 100) x) as [H|H]; [exact H|exfalso]. destruct (Rle_lt_dec x 0) as [H0|H0].
    - assert (0 <= uro * - x) by (apply Rmult_le_pos; lra). revert Hz. unfold Rabs. destruct Rcase_abs; lra.
    - assert (uro * x <= / 1000000 * x) by (apply Rmult_le_compat_r; lra). revert Hz. unfold Rabs. destruct Rcase_abs; lra. }
  assert (Z0 : eqb z zero = false) by (apply (feqb_zero z Vz Fz); lra). split.
  { unfold sgamma, gamma_step at 1. rewrite Z0, (fltb_val z (lit 1 2) Vz Vh Fz Fh), Eh, Rlt_bool_false by lra. reflexivity. }
  destruct (lanczos_near z x Gz ltac:(lra) Hz) as (G & N). split; [exact G|].
  apply (near_le (408 / 100 * (a * uro) + 4870 * uro + 34 / 10000000000000)); [|unfold Kg; lra]. eapply near_trans; [exact N|apply lanczos_true; [lra|exact Hg]].
Qed.
Lemma gamma_near (z : f64) (x g : R) : fgood z -> Rabs (fval z - x) <= 101 / 100 * uro * x -> bpow radix2 (-600) <= x <= 141 -> euler_gamma x g ->
  exists v, sgamma z = Ret v /\ fnear Kg v g.
Proof.
  intros Gz Hz Hx Hg. pose proof uro_b as U. pose proof au_b as A. pose proof (bpow_gt_0 radix2 (-600)) as B600. pose proof PI_up as PU.
  assert (UX : 0 < uro * x) by (apply Rmult_lt_0_compat; lra). assert (UX' : uro * x <= / 1000000 * x) by (apply Rmult_le_compat_r; lra).
  assert (ZR : x - 101 / 100 * (uro * x) <= fval z <= x + 101 / 100 * (uro * x)) by (revert Hz; unfold Rabs; destruct Rcase_abs; lra).
  pose proof Gz as (Vz & Fz). destruct num12 as ((Vh & Fh) & Eh).
  assert (Z0 : eqb z zero = false) by (apply (feqb_zero z Vz Fz); lra).
  destruct (Rle_lt_dec (/ 2) (fval z)) as [Hi|Lo].
  - exists (lanczos z). apply (gamma_near_hi z x g Gz); [lra|exact Hi|lra|exact Hg].
  - destruct num1 as ((V1 & F1) & E1). pose proof big23 as B23.
    destruct (fsub_ok one z V1 Vz F1 Fz) as (Vw & Fw & Ew). { rewrite E1. apply Rabs_le. lra. }
    assert (Wr : / 2 <= fval (sub one z)).
    { destruct (fsub_round one z V1 Vz F1 Fz) as (Rw & _). { apply no_ov. rewrite E1. apply Rabs_le. lra. } rewrite Rw, E1.
      apply round_ge_generic; [typeclasses eauto|typeclasses eauto| |lra]. rewrite <- Eh. now apply fmt_fval. }
    rewrite E1, (Rabs_pos_eq (1 - fval z)) in Ew by lra. set (w := sub one z) in *.
    assert (UU : uro * (uro * x) <= / 1000000 * (uro * x)) by (apply Rmult_le_compat_r; lra).
    assert (Dw : Rabs (fval w - (1 - x)) <= 21 / 10 * uro * (1 - x)).
    { replace (fval w - (1 - x)) with ((fval w - (1 - fval z)) - (fval z - x)) by ring. eapply Rle_trans; [apply Rabs_triang|]. rewrite Rabs_Ropp.
      assert (uro * (1 - fval z) <= uro * (1 - x + 101 / 100 * (uro * x))) by (apply Rmult_le_compat_l; lra).
      assert (uro * x <= uro * (51 / 100)) by (apply Rmult_le_compat_l; lra). assert (uro * (49 / 100) <= uro * (1 - x)) by (apply Rmult_le_compat_l; lra). lra. }
    assert (X1 : 49 / 100 <= 1 - x <= 141) by lra.
    destruct (gamma_exists (1 - x) ltac:(lra)) as (h & Hh).
    destruct (lanczos_near w (1 - x) (conj Vw Fw) X1 Dw) as (Gl & Nl). pose proof (lanczos_true _ _ (proj1 X1) Hh) as Nt. pose proof (near_trans _ _ _ _ _ Nl Nt) as Nh.
    pose proof (lanczos_size (1 - x) X1) as Sz. pose proof (near_range (34 / 10000000000000) _ _ ltac:(lra) (near_sym _ _ _ Nt)) as Rh.
    set (X := PI * x). assert (X0 : 0 < X <= 16 / 10) by (unfold X; split; [apply Rmult_lt_0_compat; lra|apply Rle_trans with (315 / 100 * (50001 / 100000)); [apply Rmult_le_compat; lra|lra]]).
    assert (Nz : fnear (104 / 100 * uro) z x) by (split; [exact Gz|apply (near_le (102 / 100 * (101 / 100 * uro))); [|lra]; apply near_rel; [lra|lra|exact Hz]]).
    assert (XL : bpow radix2 (-599) <= X).
    { change (-599)%Z with (1 + -600)%Z. rewrite bpow_plus. change (bpow radix2 1) with 2. unfold X. apply Rmult_le_compat; lra. }
    assert (BB : forall e : Z, (-599 <= e)%Z -> bpow radix2 (-599) <= bpow radix2 e) by (intros; now apply bpow_le).
    pose proof big20 as B20.
    assert (Ny : fnear (348 / 100 * uro) (mul tpi z) X).
    { eapply fnear_le; [apply (fnear_mul _ _ _ _ _ _ pi_near Nz); [lra|lra|lra|]|lra]. fold X. split; [eapply Rle_trans; [|exact XL]; apply bpow_le; lia|lra]. }
    destruct Ny as (Gy & Ny). pose proof (rel_near (348 / 100 * uro) _ _ ltac:(lra) Ny) as Dy. pose proof (near_range (348 / 100 * uro) _ _ ltac:(lra) Ny) as Ry. set (y := mul tpi z) in *.
    pose proof (sin_lower X X0) as SX. destruct HL as (_ & _ & HS & _). destruct (HS y Gy) as (Gs & Es).
    { split; [|lra]. apply Rle_trans with (/ 2 * bpow radix2 (-599)); [|lra]. change (-599)%Z with (1 + -600)%Z. rewrite bpow_plus. change (bpow radix2 1) with 2.
      apply Rle_trans with (bpow radix2 (-600)); [apply bpow_le; lia|lra]. }
    assert (Ns0 : near (80 / 10 * uro) (sin (fval y)) (sin X)).
    { apply (near_le (102 / 100 * (78 / 10 * uro))); [|lra]. apply near_rel; [lra|lra|]. eapply Rle_trans; [apply sin_lip|]. eapply Rle_trans; [exact Dy|].
      assert (uro * (46 / 100 * X) <= uro * sin X) by (apply Rmult_le_compat_l; lra). assert (0 <= uro * X) by (apply Rmult_le_pos; lra). lra. }
    pose proof (near_pos _ _ _ Ns0) as (Sy0 & SX0).
    assert (Ns : fnear (102 / 100 * (a * uro) + 80 / 10 * uro) (tsin y) (sin X)).
    { split; [exact Gs|]. eapply near_trans; [eapply acc_near; [|exact Es]; exact Sy0|exact Ns0]. }
    assert (S1 : sin X <= 1) by apply SIN_bound. assert (SL : bpow radix2 (-601) <= sin X).
    { replace (bpow radix2 (-599)) with (4 * bpow radix2 (-601)) in XL by (change (-599)%Z with (2 + -601)%Z; rewrite bpow_plus; reflexivity). pose proof (bpow_gt_0 radix2 (-601)). lra. }
    pose proof (bpow_gt_0 radix2 (-307)) as B307. pose proof (bpow_gt_0 radix2 (-601)) as B601.
    assert (HL' : bpow radix2 (-308) <= h <= bpow radix2 960).
    { replace (bpow radix2 (-307)) with (2 * bpow radix2 (-308)) in Sz by (change (-307)%Z with (1 + -308)%Z; rewrite bpow_plus; reflexivity).
      replace (bpow radix2 960) with (2 * bpow radix2 959) by (change 960%Z with (1 + 959)%Z; rewrite bpow_plus; reflexivity). pose proof (bpow_gt_0 radix2 (-308)). pose proof (bpow_gt_0 radix2 959). lra. }
    assert (SH : bpow radix2 (-909) <= sin X * h <= bpow radix2 960).
    { split; [change (-909)%Z with (-601 + -308)%Z; rewrite bpow_plus; apply Rmult_le_compat; try lra; apply bpow_ge_0|]. rewrite <- (Rmult_1_l (bpow radix2 960)). pose proof (bpow_gt_0 radix2 (-308)). apply Rmult_le_compat; lra. }
    assert (Nd : fnear (102 / 100 * (a * uro) + 80 / 10 * uro + (408 / 100 * (a * uro) + 4870 * uro + 34 / 10000000000000) + 103 / 100 * uro) (mul (tsin y) (lanczos w)) (sin X * h)).
    { apply fnear_mul; [exact Ns|split; [exact Gl|exact Nh]|lra|lra|lra|]. split; [eapply Rle_trans; [|exact (proj1 SH)]|eapply Rle_trans; [exact (proj2 SH)|]]; apply bpow_le; lia. }
    assert (Hg' : PI / (sin X * h) = g).
    { pose proof (is_gamma_reflection x g h (euler_is_gamma x g ltac:(lra) Hg) (euler_is_gamma (1 - x) h ltac:(lra) Hh)) as Rf. fold X in Rf. pose proof (euler_gamma_pos _ _ Hh) as Ph. rewrite <- Rf. field. lra. }
    exists (div tpi (mul (tsin y) (lanczos w))). split.
    { unfold sgamma, gamma_step at 1. rewrite Z0, (fltb_val z (lit 1 2) Vz Vh Fz Fh), Eh, Rlt_bool_true by lra.
      unfold gamma_step. fold w. assert (W0 : eqb w zero = false) by (apply (feqb_zero w Vw Fw); lra). rewrite W0, (fltb_val w (lit 1 2) Vw Vh Fw Fh), Eh, Rlt_bool_false by lra. reflexivity. }
    rewrite <- Hg'. eapply fnear_le; [apply (fnear_div _ _ _ _ _ _ pi_near Nd); [lra|lra|lra|]|unfold Kg; lra].
    pose proof (bpow_gt_0 radix2 (-909)) as B909. unfold Rdiv. split.
    + apply Rle_trans with (1 * / bpow radix2 960); [rewrite Rmult_1_l, <- bpow_opp; apply bpow_le; lia|]. apply Rmult_le_compat; [lra|left; apply Rinv_0_lt_compat, bpow_gt_0|lra|apply Rinv_le_contravar; lra].
    + apply Rle_trans with (bpow radix2 2 * / bpow radix2 (-909)); [|rewrite <- bpow_opp, <- bpow_plus; apply bpow_le; lia]. change (bpow radix2 2) with 4.
      apply Rmult_le_compat; [lra|left; apply Rinv_0_lt_compat; lra|lra|apply Rinv_le_contravar; lra].
Qed.
Theorem gamma_f64 (z : f64) g : fgood z -> bpow radix2 (-600) <= fval z <= 141 -> is_gamma (fval z) g ->
  exists v, sgamma z = Ret v /\ fgood v /\ Rabs (fval v - g) <= (35 / 10000000000000 + (6 * a + 5000) * uro) * g.
Proof.
  intros Gz Hz Hg. pose proof (bpow_gt_0 radix2 (-600)) as B. pose proof uro_b as U. pose proof au_b as A. pose proof Kg_b as K.
  apply is_gamma_euler in Hg; [|lra]. destruct (gamma_near z (fval z) g Gz) as (v & E1 & G & N); [|exact Hz|exact Hg|].
  { rewrite Rminus_eq_0, Rabs_R0. apply Rmult_le_pos; lra. }
  exists v. split; [exact E1|]. split; [exact G|]. eapply Rle_trans; [exact (rel_near Kg _ _ ltac:(lra) N)|]. pose proof (near_pos _ _ _ N) as (_ & Pg). apply Rmult_le_compat_r; [lra|]. unfold Kg. lra.
Qed.
Lemma beta_near (p q : f64) B ga gb : fgood p -> fgood q -> bpow radix2 (-600) <= fval p -> bpow radix2 (-600) <= fval q -> fval p + fval q <= 141 ->
  euler_beta (fval p) (fval q) B -> is_gamma (fval p) ga -> is_gamma (fval q) gb ->
  bpow radix2 (-999) <= ga * gb <= bpow radix2 1022 -> bpow radix2 (-999) <= B <= bpow radix2 1022 ->
  exists v, sbeta p q = Ret v /\ fnear (3 * Kg + 206 / 100 * uro) v B.
Proof.
  intros Gp Gq Hp Hq Hs HB Hga Hgb R1 R2. pose proof (bpow_gt_0 radix2 (-600)) as B6. pose proof uro_b as U. pose proof au_b as A. pose proof Kg_b as K.
  apply is_gamma_euler in Hga; [|lra]. apply is_gamma_euler in Hgb; [|lra]. destruct (gamma_exists (fval p + fval q) ltac:(lra)) as (gs & Hgs).
  assert (D0 : forall x, 0 < x -> Rabs (x - x) <= 101 / 100 * uro * x) by (intros x Hx; rewrite Rminus_eq_0, Rabs_R0; apply Rmult_le_pos; lra).
  destruct (gamma_near p (fval p) ga Gp (D0 (fval p) ltac:(lra)) ltac:(lra) Hga) as (va & Ea & Na). destruct (gamma_near q (fval q) gb Gq (D0 (fval q) ltac:(lra)) ltac:(lra) Hgb) as (vb & Eb & Nb).
  pose proof Gp as (Vp & Fp). pose proof Gq as (Vq & Fq). pose proof big23 as B23.
  destruct (fadd_ok p q Vp Vq Fp Fq) as (Vs & Fs & Es). { apply Rabs_le. lra. } rewrite (Rabs_pos_eq (fval p + fval q)) in Es by lra.
  assert (US : 0 <= uro * (fval p + fval q)) by (apply Rmult_le_pos; lra).
  destruct (gamma_near (add p q) (fval p + fval q) gs (conj Vs Fs) ltac:(lra) ltac:(lra) Hgs) as (vs & Eg & Ns).
  rewrite (beta_gamma (fval p) (fval q) B ga gb gs ltac:(lra) ltac:(lra) HB Hga Hgb Hgs) in *.
  pose proof (fnear_mul _ _ _ _ _ _ Na Nb ltac:(lra) ltac:(lra) ltac:(lra) R1) as Nm. pose proof (fnear_div _ _ _ _ _ _ Nm Ns ltac:(lra) ltac:(lra) ltac:(lra) R2) as Nd.
  exists (div (mul va vb) vs). unfold sbeta. rewrite Ea, Eb. cbn [bind]. rewrite Eg. cbn [bind]. split; [reflexivity|]. eapply fnear_le; [exact Nd|lra].
Qed.
Theorem beta_f64 (p q : f64) B ga gb : fgood p -> fgood q -> bpow radix2 (-600) <= fval p -> bpow radix2 (-600) <= fval q -> fval p + fval q <= 141 ->
  euler_beta (fval p) (fval q) B -> is_gamma (fval p) ga -> is_gamma (fval q) gb ->
  bpow radix2 (-999) <= ga * gb <= bpow radix2 1022 -> bpow radix2 (-999) <= B <= bpow radix2 1022 ->
  exists v, sbeta p q = Ret v /\ fgood v /\ Rabs (fval v - B) <= (105 / 10000000000000 + (16 * a + 15000) * uro) * B.
Proof.
  intros Gp Gq Hp Hq Hs HB Hga Hgb R1 R2. pose proof uro_b as U. pose proof au_b as A. pose proof Kg_b as K.
  destruct (beta_near p q B ga gb Gp Gq Hp Hq Hs HB Hga Hgb R1 R2) as (v & Ev & G & N). exists v. split; [exact Ev|]. split; [exact G|].
  eapply Rle_trans; [exact (rel_near (3 * Kg + 206 / 100 * uro) _ _ ltac:(lra) N)|]. pose proof (near_pos _ _ _ N) as (_ & Pg). apply Rmult_le_compat_r; [lra|]. unfold Kg. lra.
Qed.
End Libm.
