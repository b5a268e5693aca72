(** The logarithm of the factorial in binary64; elementary functions that meet the hypotheses. *)
From Coq Require Import Arith Lia List Bool ZArith Reals Lra Psatz SpecFloat.
From Flocq Require Import Core IEEE754.BinarySingleNaN.
From Verif Require Import Outcome Scalar RealOps Elem_model Int_model Ode_model Complex_model Special_model Special_spec Stat_spec F64_spec F64Cplx_spec F64Gamma_spec F64LnGamma_spec
  F64Flocq F64Err_proofs F64Grid_proofs F64Lin_proofs F64Libm_proofs GammaFun_proofs Stirling_proofs GammaAll_proofs F64Gamma_proofs F64GammaFun_proofs F64GammaEx_proofs F64LnGamma_proofs.
Local Open Scope R_scope.

Lemma rising_fact n : rising 1 n = INR (fact n).
Proof. induction n as [|n IH]; [reflexivity|]. cbn [rising]. rewrite IH, fact_simpl, mult_INR, S_INR. ring. Qed.
Lemma gamma_fact n : is_gamma (INR n + 1) (INR (fact n)).
Proof.
  pose proof (pos_INR n). apply euler_is_gamma; [lra|]. pose proof (euler_gamma_rising 1 1 n ltac:(lra) euler_gamma_1) as G. rewrite Rmult_1_r, rising_fact in G. now rewrite Rplus_comm.
Qed.
Lemma ln_fact_f64 : forall (pw : f64 -> f64 -> f64) (E : EOps f64) a, 0 <= a <= 1000 -> libm_acc a pw E -> ln_acc a (@tln f64 E) -> e_acc E ->
  forall (x : f64) (n : nat), fgood x -> fval x = INR n + 1 -> INR n <= 999999 ->
  fgood (@sln_gamma f64 _ (F64_pops pw) E _ x) /\
  Rabs (fval (@sln_gamma f64 _ (F64_pops pw) E _ x) - ln (INR (fact n))) <= 4 / 100000000000000000 + (97000 + 40 * a + (12 + 2 * a) * lg_scale (INR n + 1)) * uro.
Proof.
  intros pw E a Ha HL HN HE x n Gx Ex Hn. rewrite <- Ex. apply (ln_gamma_f64 pw E a Ha HL HN HE x _ Gx); rewrite Ex; [|apply gamma_fact].
  pose proof (pos_INR n). split; [|lra]. apply Rle_trans with (bpow radix2 0); [apply bpow_le; lia|change (bpow radix2 0) with 1; lra].
Qed.
Lemma ln_scale_pos x : 0 < x -> 0 <= lg_scale x.
Proof. intros H. unfold lg_scale. pose proof (ln_ge_1 (x + 11) ltac:(lra)). pose proof (Rabs_pos (ln x)). assert (0 <= x * ln (x + 11)) by (apply Rmult_le_pos; lra). lra. Qed.
Lemma lg_scale_small x : 1 / 2 <= x <= 8 -> 0 <= lg_scale x <= 28.
Proof.
  intros H. split; [apply ln_scale_pos; lra|]. unfold lg_scale.
  assert (E3 : 19 <= exp 3). { replace 3 with (INR 192 * (1 / 64)) by (simpl; lra). rewrite exp_nat. apply Rle_trans with ((1 + 1 / 64) ^ 192); [|apply pow_incr; pose proof (exp_ineq1_le (1 / 64)); lra]. simpl. lra. }
  assert (L3 : ln (x + 11) <= 3) by (rewrite <- (ln_exp 3); apply ln_mono; lra). pose proof (ln_ge_1 (x + 11) ltac:(lra)).
  pose proof (ln_mono (1 / 2) x ltac:(lra) ltac:(lra)).
  assert (LH : - (1) <= ln (1 / 2)). { rewrite <- (ln_exp (- (1))). apply ln_mono; [apply exp_pos|]. rewrite exp_Ropp. pose proof e_rng. apply Rle_trans with (/ 2); [apply Rinv_le_contravar; lra|lra]. }
  destruct (Rle_lt_dec x 1) as [L|L].
  - pose proof (ln_mono x 1 ltac:(lra) L) as L1. rewrite ln_1 in L1. rewrite Rabs_left1 by lra. assert (x * ln (x + 11) <= 1 * 3) by (apply Rmult_le_compat; lra). lra.
  - pose proof (ln_mono 1 x ltac:(lra) ltac:(lra)) as L1. rewrite ln_1 in L1. rewrite Rabs_pos_eq by lra.
    assert (LX : ln x <= x / 8 + 2). { pose proof (exp_ineq1_le (ln x - ln 8)) as Q. unfold Rminus in Q. rewrite exp_plus, exp_Ropp, !exp_ln in Q by lra.
      assert (ln 8 <= 3) by (rewrite <- (ln_exp 3); apply ln_mono; lra). lra. }
    assert (x * ln (x + 11) <= x * 3) by (apply Rmult_le_compat_l; lra). lra.
Qed.
Lemma lg_scale_large x : 1 <= x <= 1000000 -> 0 <= lg_scale x <= 35 * x.
Proof.
  intros H. split; [apply ln_scale_pos; lra|]. unfold lg_scale. pose proof (ln_20 (x + 11) ltac:(lra) ltac:(lra)) as A. pose proof (ln_mono 1 x ltac:(lra) ltac:(lra)) as L1. rewrite ln_1 in L1.
  rewrite Rabs_pos_eq by lra. assert (ln x <= x). { pose proof (exp_ineq1_le (ln x)) as Q. rewrite exp_ln in Q by lra. lra. }
  assert (x * ln (x + 11) <= x * 20) by (apply Rmult_le_compat_l; lra). lra.
Qed.
Lemma hyps_ex : libm_acc 2 exact_pow exact_eops /\ ln_acc 2 (@tln f64 exact_eops) /\ e_acc exact_eops.
Proof.
  split; [exact (proj1 libm_acc_ex)|]. pose proof uro_b as U. split.
  - intros x G H. destruct (ln_acc_ex x G H) as (G1 & X). split; [exact G1|]. assert (0 <= uro * Rabs (ln (fval x))) by (apply Rmult_le_pos; [lra|apply Rabs_pos]). lra.
  - pose proof e_rng as ER. unfold e_acc. change (@te f64 exact_eops) with (ofR (exp 1)).
    destruct (ofR_rel (exp 1)) as (G & H). { split; [apply Rle_trans with (bpow radix2 0); [apply bpow_le; lia|change (bpow radix2 0) with 1; lra]|apply Rle_trans with (bpow radix2 2); [change (bpow radix2 2) with 4; lra|apply bpow_le; lia]]. }
    destruct (ofR_err (exp 1)) as (_ & X). { rewrite Rabs_pos_eq by lra. apply Rle_trans with (bpow radix2 2); [change (bpow radix2 2) with 4; lra|apply bpow_le; lia]. }
    split; [exact G|]. rewrite (Rabs_pos_eq (exp 1)) in X by lra. pose proof eta_uro as Et. assert (uro * exp 1 <= uro * 3) by (apply Rmult_le_compat_l; lra). lra.
Qed.
Lemma ln_gamma_one : Rabs (fval (@sln_gamma f64 _ (F64_pops exact_pow) exact_eops _ one)) <= 12 / 1000000000000.
Proof.
  destruct hyps_ex as (H1 & H2 & H3). destruct num1 as (G1 & E1).
  destruct (ln_fact_f64 exact_pow exact_eops 2 ltac:(lra) H1 H2 H3 one 0 G1) as (_ & B); [rewrite E1; simpl; ring|simpl; lra|].
  change (fact 0) with 1%nat in B. change (INR 1) with 1 in B. rewrite ln_1, Rminus_0_r in B. eapply Rle_trans; [exact B|]. change (INR 0) with 0. rewrite Rplus_0_l.
  pose proof (lg_scale_small 1 ltac:(lra)) as S. rewrite uro_val. lra.
Qed.
