(** The power inside the Lanczos approximation overflows long before the gamma function does; and elementary functions that meet the hypotheses. *)
From Coq Require Import Arith Lia List Bool ZArith Reals Lra Psatz SpecFloat.
From Flocq Require Import Core IEEE754.BinarySingleNaN.
From Verif Require Import Outcome Scalar RealOps Elem_model Int_model Ode_model Complex_model Special_model Special_spec Stat_spec F64_spec F64Cplx_spec F64Gamma_spec
  F64Flocq F64Err_proofs F64Grid_proofs F64Lin_proofs F64Libm_proofs F64Adapt_proofs GammaFun_proofs Stirling_proofs Stirling_proofs GammaAll_proofs F64Gamma_proofs F64GammaFun_proofs.
Local Open Scope R_scope.

Lemma num150 : fgood (lit 150 1) /\ fval (lit 150 1) = 150. Proof. num_tac. Qed.
Lemma fpos_intro (x : f64) : fgood x -> 0 < fval x -> exists m e, x = S754_finite false m e.
Proof.
  intros (V & F) H. destruct x as [s|s| |[|] m e]; try discriminate F; [cbn in H; lra| |now exists m, e].
  exfalso. revert H. rewrite <- (B2SF_toB _ V), fval_B. intro H. revert H. apply Rle_not_lt.
  destruct (toB (S754_finite true m e) V) eqn:Eb; cbn; try lra. pose proof (f_equal B2SF Eb) as X. rewrite B2SF_toB in X. cbn in X. injection X as <- _ _.
  apply F2R_le_0. cbn. lia.
Qed.
Section Overflow.
Context (pw : f64 -> f64 -> f64) (E : EOps f64) (a : R) (Ha : 0 <= a <= 1000) (HL : libm_acc a pw E) (HO : pow_overflow pw).
#[local] Existing Instance E.
#[local] Instance PP : POps f64 := F64_pops pw.
Lemma pow_150 : tpow (add (lit 150 1 : f64) (lit 13 2)) (sub (lit 150 1) (lit 1 2)) = S754_infinity false.
Proof.
  assert (V1 : fgood (add (lit 150 1) (lit 13 2)) /\ fval (add (lit 150 1) (lit 13 2)) = 313 / 2) by num_tac.
  assert (V2 : fgood (sub (lit 150 1) (lit 1 2)) /\ fval (sub (lit 150 1) (lit 1 2)) = 299 / 2) by num_tac.
  destruct V1 as (G1 & F1), V2 as (G2 & F2). apply HO; [exact G1|exact G2|lra|]. rewrite F1, F2.
  unfold Rpower. rewrite bpow_exp. apply exp_mono. assert (L : IZR 7 * ln 2 <= ln (313 / 2)). { rewrite <- ln_bpow. change (bpow radix2 7) with 128. apply ln_mono; lra. }
  change (IZR radix2) with 2. pose proof (ln_mono 1 2 ltac:(lra) ltac:(lra)) as L0. rewrite ln_1 in L0. lra.
Qed.
Lemma gamma_150 : sgamma (lit 150 1 : f64) = Ret (S754_infinity false).
Proof.
  pose proof num150 as ((V & F) & Ez). pose proof num12 as ((Vh & Fh) & Eh). pose proof (au_b a Ha) as A. pose proof PI_up as PU. pose proof uro_b as U.
  unfold sgamma, gamma_step at 1. rewrite (fltb_val _ _ V Vh F Fh), Ez, Eh, Rlt_bool_false by lra.
  replace (eqb (lit 150 1 : f64) zero) with false by (vm_compute; reflexivity). f_equal. unfold lanczos. rewrite pow_150.
  destruct (sqrt_near pw E a Ha HL (lit 2 1) 0 2) as (G2 & N2); [split; [exact (proj1 num2)|rewrite (proj2 num2); apply near_refl; lra]|lra|lra|].
  destruct (sqrt_near pw E a Ha HL tpi _ PI (pi_near pw E a HL)) as (Gp & Np); [lra|lra|].
  assert (S2 : sqrt 2 <= 2) by (replace 2 with (sqrt 4) at 2 by (replace 4 with (2 * 2) by ring; apply sqrt_square; lra); apply sqrt_le_1_alt; lra).
  assert (Sp : sqrt PI <= 2) by (replace 2 with (sqrt 4) by (replace 4 with (2 * 2) by ring; apply sqrt_square; lra); apply sqrt_le_1_alt; lra).
  assert (T2 : 1 <= sqrt 2) by (rewrite <- sqrt_1; apply sqrt_le_1_alt; lra). assert (Tp : 1 <= sqrt PI) by (rewrite <- sqrt_1; apply sqrt_le_1_alt; lra).
  assert (SS : 1 <= sqrt 2 * sqrt PI <= 4) by (split; [rewrite <- (Rmult_1_l 1)|replace 4 with (2 * 2) by ring]; apply Rmult_le_compat; lra).
  pose proof big20 as B20. pose proof tiny40 as T40.
  destruct (fnear_mul _ _ _ _ _ _ (conj G2 N2) (conj Gp Np)) as (Gm & Nm); [lra|lra|lra|lra|].
  assert (Q1 : exists m e, mul (tsqrt (lit 2 1 : f64)) (tsqrt tpi) = S754_finite false m e) by exact (fpos_intro _ Gm (proj1 (near_pos _ _ _ Nm))). destruct Q1 as (m & e & ->).
  assert (V1 : fgood (neg (add (lit 150 1) (lit 13 2))) /\ fval (neg (add (lit 150 1) (lit 13 2))) = - (313 / 2)) by num_tac.
  destruct V1 as (G1 & F1). destruct HL as (_ & HE & _). destruct (HE _ G1) as (Ge & Ee). { rewrite F1, Rabs_Ropp, Rabs_pos_eq by lra. lra. }
  pose proof (exp_pos (fval (neg (add (lit 150 1) (lit 13 2))))) as X0. pose proof (acc_near a Ha _ _ X0 Ee) as Ne. destruct (fpos_intro _ Ge (proj1 (near_pos _ _ _ Ne))) as (m' & e' & ->).
  let v := eval vm_compute in (lanczos_sum (lit 150 1 : f64)) in replace (lanczos_sum (lit 150 1 : f64)) with v by (vm_compute; reflexivity). reflexivity.
Qed.
End Overflow.
(** 149! is far below the overflow threshold. *)
Fixpoint zrise (n : nat) : Z := match n with O => 1 | S k => zrise k * (1 + Z.of_nat k) end%Z.
Lemma rising_z n : rising 1 n = IZR (zrise n).
Proof. induction n as [|n IH]; [reflexivity|]. cbn [rising zrise]. rewrite IH, mult_IZR, plus_IZR, <- INR_IZR_INZ. reflexivity. Qed.
Lemma gamma_150_true : exists g, is_gamma 150 g /\ 1 <= g <= bpow radix2 900.
Proof.
  exists (rising 1 149). split.
  - apply euler_is_gamma; [lra|]. pose proof (euler_gamma_rising 1 1 149 ltac:(lra) euler_gamma_1) as G. rewrite Rmult_1_r in G. replace 150 with (1 + INR 149) by (rewrite INR_IZR_INZ; cbn; ring). exact G.
  - rewrite rising_z. change (bpow radix2 900) with (IZR (2 ^ 900)). split; apply IZR_le; vm_compute; discriminate.
Qed.
(** Correctly rounded functions meet the hypotheses. *)
Definition exact_pow (x y : f64) : f64 := if Rle_bool (bpow radix2 1024) (Rpower (fval x) (fval y)) then S754_infinity false else ofR (Rpower (fval x) (fval y)).
Lemma ofR_rel y : bpow radix2 (-1021) <= y <= bpow radix2 1023 -> fgood (ofR y) /\ Rabs (fval (ofR y) - y) <= 2 * uro * y.
Proof.
  intros H. pose proof (bpow_gt_0 radix2 (-1021)) as B. destruct (ofR_err y) as (G & X); [rewrite Rabs_pos_eq; lra|]. split; [exact G|]. rewrite (Rabs_pos_eq y) in X by lra.
  pose proof eta_uro_2 as Et. pose proof uro_pos as U. assert (uro * bpow radix2 (-1022) <= uro * y). { apply Rmult_le_compat_l; [lra|]. eapply Rle_trans; [apply bpow_le|exact (proj1 H)]. lia. } lra.
Qed.
Lemma libm_acc_ex : libm_acc 2 exact_pow exact_eops /\ pow_overflow exact_pow.
Proof.
  assert (LE : forall e, (e <= 1023)%Z -> bpow radix2 e <= bpow radix2 1023) by (intros; now apply bpow_le).
  assert (LE' : forall e, (-1021 <= e)%Z -> bpow radix2 (-1021) <= bpow radix2 e) by (intros; now apply bpow_le). pose proof PI_up as PU.
  split; [|intros x y _ _ _ H; unfold exact_pow; now rewrite Rle_bool_true].
  split; [|split; [exact exp_acc_ex|split; [|]]].
  - intros x y _ _ _ H. unfold exact_pow. pose proof (LE 1020%Z ltac:(lia)). pose proof (LE' (-1020)%Z ltac:(lia)). rewrite Rle_bool_false.
    + apply ofR_rel. lra.
    + eapply Rle_lt_trans; [exact (proj2 H)|]. apply bpow_lt. lia.
  - intros x _ H. pose proof (LE' (-1012)%Z ltac:(lia)). pose proof (LE 0%Z ltac:(lia)) as L0. change (bpow radix2 0) with 1 in L0. pose proof (bpow_gt_0 radix2 (-1010)).
    assert (E1 : bpow radix2 (-1010) = 4 * bpow radix2 (-1012)) by (change (-1010)%Z with (2 + -1012)%Z; rewrite bpow_plus; reflexivity).
    change (@tsin f64 exact_eops x) with (ofR (sin (fval x))). apply ofR_rel. split; [|pose proof (SIN_bound (fval x)); lra].
    destruct (Rle_lt_dec (fval x) (16 / 10)) as [Hx|Hx].
    + pose proof (sin_lower (fval x) ltac:(lra)). lra.
    + rewrite <- sin_PI_x. pose proof (sin_lower (PI - fval x) ltac:(lra)) as L. pose proof (LE' (-2)%Z ltac:(lia)) as L2. change (bpow radix2 (-2)) with (/ 4) in L2. lra.
  - change (@tpi f64 exact_eops) with (ofR PI). pose proof (LE 2%Z ltac:(lia)) as L2. change (bpow radix2 2) with 4 in L2. pose proof (LE' 0%Z ltac:(lia)) as L0. change (bpow radix2 0) with 1 in L0.
    destruct (ofR_ok PI) as (G & Ev); [rewrite Rabs_pos_eq; lra|]. split; [exact G|]. destruct (ofR_err PI) as (_ & X); [rewrite Rabs_pos_eq; lra|].
    rewrite (Rabs_pos_eq PI) in X by lra. pose proof eta_uro_2 as Et. pose proof uro_pos as U.
    assert (uro * bpow radix2 (-1022) <= uro * (1 / 2)). { apply Rmult_le_compat_l; [lra|]. apply Rle_trans with (bpow radix2 (-1)); [apply bpow_le; lia|change (bpow radix2 (-1)) with (/ 2); lra]. }
    assert (uro * PI <= uro * (315 / 100)) by (apply Rmult_le_compat_l; lra). lra.
Qed.
