(** The gamma density underflows to zero when the gamma function overflows; and arguments that meet the hypotheses of the accuracy theorems. *)
From Coq Require Import Arith Lia List Bool ZArith Reals Lra Psatz SpecFloat.
From Flocq Require Import Core IEEE754.BinarySingleNaN.
From Verif Require Import Outcome Scalar RealOps Elem_model Int_model Ode_model Complex_model Special_model Special_spec Stat_model Stat_spec F64_spec F64Cplx_spec F64Gamma_spec F64Density_spec
  F64Flocq F64Err_proofs F64Libm_proofs GammaFun_proofs Stirling_proofs GammaAll_proofs F64Gamma_proofs F64GammaFun_proofs F64GammaEx_proofs F64Density_proofs.
Local Open Scope R_scope.

Lemma num100 : fgood (lit 100 1) /\ fval (lit 100 1) = 100. Proof. num_tac. Qed.
Lemma Rpower_IZR p n : (0 < p)%Z -> Rpower (IZR p) (INR n) = IZR (p ^ Z.of_nat n).
Proof. intro H. rewrite Rpower_pow by (apply IZR_lt; lia). apply pow_IZR. Qed.
Lemma frac_le A B C D : 0 < A -> 0 < B -> 0 < D -> A * B <= C * D -> / D <= 1 / A * C * / B.
Proof.
  intros HA HB HD H. apply Rmult_le_reg_r with (A * B * D); [apply Rmult_lt_0_compat; [apply Rmult_lt_0_compat|]; assumption|].
  replace (/ D * (A * B * D)) with (A * B) by (field; lra). replace (1 / A * C * / B * (A * B * D)) with (C * D) by (field; lra). exact H.
Qed.
Section Overflow.
Context (pw : f64 -> f64 -> f64) (E : EOps f64) (a : R) (Ha : 0 <= a <= 1000) (HL : libm_acc a pw E) (HO : pow_overflow pw).
#[local] Existing Instance E.
#[local] Instance PO : POps f64 := F64_pops pw.
Lemma pow_pos (x y : f64) : fgood x -> fgood y -> 0 < fval x -> bpow radix2 (-1020) <= Rpower (fval x) (fval y) <= bpow radix2 1020 -> exists m e, tpow x y = S754_finite false m e.
Proof.
  intros Gx Gy X0 H. destruct HL as (HP & _). destruct (HP x y Gx Gy X0 H) as (G & Er). apply (fpos_intro _ G).
  exact (proj1 (near_pos _ _ _ (acc_near a Ha _ _ (exp_pos _) Er))).
Qed.
Lemma gamma_pdf_150 fuel : gammad_pdf (Sp := impl_special fuel) (mkGammaD (lit 150 1) one) (lit 100 1) = Ret (S754_zero false).
Proof.
  unfold gammad_pdf. replace (leb (lit 100 1 : f64) zero) with false by (vm_compute; reflexivity). assert (G : @sgamma f64 F64_ops (F64_pops pw) E (lit 150 1) = @Ret f64 (S754_infinity false)) by exact (gamma_150 pw E a Ha HL HO).
  pose proof num1 as (G1 & E1). pose proof num150 as (Ga & Ea). pose proof num100 as (Gx & Ex).
  destruct (pow_pos one (lit 150 1) G1 Ga ltac:(lra)) as (m1 & e1 & H1).
  { rewrite E1, Ea. replace (Rpower 1 150) with 1 by (unfold Rpower; rewrite ln_1, Rmult_0_r, exp_0; reflexivity). change 1 with (bpow radix2 0). split; apply bpow_le; lia. }
  assert (V2 : fgood (sub (lit 150 1) one) /\ fval (sub (lit 150 1) one) = 149) by num_tac. destruct V2 as (G2 & E2).
  destruct (pow_pos (lit 100 1) (sub (lit 150 1) one) Gx G2 ltac:(lra)) as (m2 & e2 & H2).
  { rewrite Ex, E2. replace 149 with (INR 149) by (rewrite INR_IZR_INZ; reflexivity). rewrite Rpower_IZR by lia. split; [apply Rle_trans with 1; [change 1 with (bpow radix2 0); apply bpow_le; lia|]|].
    - apply IZR_le. vm_compute. discriminate.
    - change (bpow radix2 1020) with (IZR (2 ^ 1020)). apply IZR_le. vm_compute. discriminate. }
  assert (V3 : fgood (mul (neg one) (lit 100 1)) /\ fval (mul (neg one) (lit 100 1)) = -100) by num_tac. destruct V3 as (G3 & E3).
  destruct (exp_fnear pw E a Ha HL (mul (neg one) (lit 100 1)) (-100) 0 G3) as (Ge & Ne); [rewrite E3, Rminus_eq_0, Rabs_R0; lra|lra|rewrite Rabs_left; lra|].
  destruct (fpos_intro _ Ge (proj1 (near_pos _ _ _ Ne))) as (m3 & e3 & H3).
  transitivity (bind (@Ret f64 (S754_infinity false)) (fun g0 => Ret (mul (mul (div (tpow one (lit 150 1)) g0) (tpow (lit 100 1) (sub (lit 150 1) one))) (texp (mul (neg one) (lit 100 1)))))).
  { rewrite <- G. reflexivity. }
  cbn [bind]. rewrite H1, H2, H3. reflexivity.
Qed.
End Overflow.
Lemma gamma_density_150 g : is_gamma 150 g -> bpow radix2 (-40) <= gamma_density 150 1 g 100.
Proof.
  intros Hg. assert (Eg : g = IZR (zrise 149)).
  { rewrite <- rising_z. apply (is_gamma_unique 150); [exact Hg|]. apply euler_is_gamma; [lra|]. pose proof (euler_gamma_rising 1 1 149 ltac:(lra) euler_gamma_1) as G. rewrite Rmult_1_r in G. replace 150 with (1 + INR 149) by (rewrite INR_IZR_INZ; cbn; ring). exact G. }
  unfold gamma_density. replace (Rpower 1 150) with 1 by (unfold Rpower; rewrite ln_1, Rmult_0_r, exp_0; reflexivity). replace (150 - 1) with (INR 149) by (rewrite INR_IZR_INZ; cbn; ring). rewrite Rpower_IZR by lia. rewrite Rmult_1_l, exp_Ropp, Eg.
  assert (E3 : exp 100 <= IZR (3 ^ 100)). { replace 100 with (INR 100 * 1) at 1 by (rewrite INR_IZR_INZ; cbn; ring). rewrite exp_nat. change (3 ^ 100)%Z with (3 ^ Z.of_nat 100)%Z. rewrite <- pow_IZR. apply pow_incr. split; [left; apply exp_pos|apply exp_le_3]. }
  assert (Z1 : 0 < IZR (zrise 149)) by (apply IZR_lt; vm_compute; reflexivity). pose proof (exp_pos 100) as X0.
  apply Rle_trans with (1 / IZR (zrise 149) * IZR (100 ^ Z.of_nat 149) * / IZR (3 ^ 100)).
  - change (bpow radix2 (-40)) with (/ IZR (2 ^ 40)). assert (Z2 : 0 < IZR (3 ^ 100)) by (apply IZR_lt; lia). assert (Z3 : 0 < IZR (2 ^ 40)) by (apply IZR_lt; lia).
    apply frac_le; [exact Z1|exact Z2|exact Z3|].
    rewrite <- !mult_IZR. apply IZR_le. vm_compute. discriminate.
  - apply Rmult_le_compat_l; [|apply Rinv_le_contravar; lra]. unfold Rdiv. rewrite Rmult_1_l. apply Rmult_le_pos; [left; now apply Rinv_0_lt_compat|]. apply IZR_le. vm_compute. discriminate.
Qed.
(** Safe numbers. *)
Lemma safe_box r : / 1048576 <= r <= 1048576 -> safe r.
Proof. intros H. split; [apply Rle_trans with (bpow radix2 (-20)); [apply bpow_le; lia|change (bpow radix2 (-20)) with (/ 1048576); lra]|apply Rle_trans with (bpow radix2 20); [change (bpow radix2 20) with 1048576; lra|apply bpow_le; lia]]. Qed.
Lemma Rpower_1_l y : Rpower 1 y = 1.
Proof. unfold Rpower. now rewrite ln_1, Rmult_0_r, exp_0. Qed.
