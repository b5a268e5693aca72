(** The equation x' = -x in binary64: the hypotheses of the error bound for the implicit Euler method hold. *)
From Coq Require Import Arith List Bool Lia ZArith Reals Lra Psatz SpecFloat.
From Flocq Require Import Core IEEE754.BinarySingleNaN.
From Coquelicot Require Import Coquelicot.
From Verif Require Import Outcome Scalar RealOps Matrix_model Vector_model Int_model LU_model Ode_model Optim_model Matrix_spec
  F64_spec F64Cplx_spec F64Newton_spec F64Impl_spec F64Flocq F64Err_proofs F64Grid_proofs F64Newton_proofs F64EulerEx_proofs F64NewtonEx_proofs F64Impl_proofs.
Import ListNotations.
Local Open Scope R_scope.

Definition decay_rhs (_ : f64) (x : vector f64) : outcome (matrix f64) := Ret (vneg x).
Definition decay_jac (_ : f64) (_ : vector f64) : outcome (matrix f64) := Ret (mkMatrix 1 1 [neg one]).

Lemma ie_tol_val : fgood ie_tol /\ 99 / 10000000000 <= fval ie_tol <= 101 / 10000000000.
Proof.
  replace (ie_tol : f64) with (S754_finite false 6044629098073146 (-79)) by (vm_compute; reflexivity). split; [split; reflexivity|].
  unfold fval, SF2R, F2R, bpow. cbn -[Rmult Rinv IZR]. change (Z.pow_pos 2 79) with 604462909807314587353088%Z. lra.
Qed.

Lemma impl_decay_run : exists N tv xv, (N <= 1026)%nat /\
  fixed_solve decay_h (@ie_step f64 F64_ops (F64_pops root_pow) ie_iters ie_tol decay_rhs decay_jac) zero one (mkMatrix 1 1 [one]) = Ret (tv, xv) /\
  length tv = S N /\ length xv = S N /\
  forall i, (i <= N)%nat -> exists a, nth i xv (mkMatrix 0 0 []) = mkMatrix 1 1 [a] /\ fgood a /\
    Rabs (fval a - exp (- fval (nth i tv zero))) <= 1 / 60.
Proof.
  assert (B10 : 4096 <= bpow radix2 999) by (change 4096 with (bpow radix2 12); apply bpow_le; lia).
  assert (B11 : 4096 <= bpow radix2 1000) by (change 4096 with (bpow radix2 12); apply bpow_le; lia).
  assert (Z0 : fval (zero : f64) = 0) by reflexivity. pose proof fval_one as Z1. pose proof decay_h_val as Zh. destruct ie_tol_val as (Gt & Vt).
  assert (TH : 0 <= bpow radix2 (-500) <= / 2 ^ 60) by (split; [apply bpow_ge_0|exact th_small]).
  set (w := fval decay_h + 4 * (INR 1026 + 1) * uro * 1). set (c := 5 * (w * 0) + 60 * uro * 4).
  set (d := 3 / 2 * w ^ 2 + 4 * uro * 1 * 3 + 6 * (fval ie_tol + bpow radix2 (-500)) + 2 * c).
  assert (W : / 1024 <= w <= / 1020).
  { unfold w. rewrite Zh, INR_1026, uro_val. lra. }
  assert (Bc : 0 <= c <= / 10000000000000) by (unfold c; rewrite uro_val; lra).
  assert (Bd : 0 <= d <= 16 / 10000000).
  { unfold d. rewrite uro_val. assert (0 <= w ^ 2 <= / 1040400) by (split; [apply pow2_ge_0|]; replace (/ 1040400) with ((/ 1020) ^ 2) by lra; apply pow_incr; lra). lra. }
  assert (Ex : forall k, (k <= 1026)%nat -> exp (INR k * (2 * (1 * w))) * (0 + INR k * d) <= 1 / 60).
  { intros k Hk. apply le_INR in Hk. rewrite INR_1026 in Hk. pose proof (pos_INR k).
    assert (E1 : INR k * (2 * (1 * w)) <= 1 + 1 + 26 / 1000) by (apply Rle_trans with (1026 * (2 * / 1020)); [apply Rmult_le_compat; lra|lra]).
    assert (E2 : exp (INR k * (2 * (1 * w))) <= exp (1 + 1 + 26 / 1000)) by (destruct E1 as [E1| ->]; [left; apply exp_increasing, E1|lra]).
    assert (E3 : exp (26 / 1000) <= 1 + 1 / 36).
    { pose proof (exp_ineq1_le (- (26 / 1000))) as Q. rewrite exp_Ropp in Q. apply Rle_trans with (/ (1 + - (26 / 1000))); [|replace (/ (1 + - (26 / 1000))) with (500 / 487) by field; lra].
      rewrite <- (Rinv_inv (exp (26 / 1000))). apply Rinv_le_contravar; lra. }
    rewrite !exp_plus in E2. pose proof exp_le_3 as E4. pose proof (exp_pos 1). pose proof (exp_pos (26 / 1000)). pose proof (exp_pos (INR k * (2 * (1 * w)))).
    assert (E6 : exp 1 * exp 1 <= 3 * 3) by (apply Rmult_le_compat; lra). assert (0 <= exp 1 * exp 1) by (apply Rmult_le_pos; lra).
    assert (E5 : exp 1 * exp 1 * exp (26 / 1000) <= 3 * 3 * (1 + 1 / 36)) by (apply Rmult_le_compat; lra).
    assert (INR k * d <= 1026 * (16 / 10000000)) by (apply Rmult_le_compat; lra).
    apply Rle_trans with (3 * 3 * (1 + 1 / 36) * (1026 * (16 / 10000000))); [|lra]. assert (0 <= INR k * d) by (apply Rmult_le_pos; lra). apply Rmult_le_compat; lra. }
  assert (Ye : forall t, - / 1000 <= t -> 0 < exp (- t) <= 11 / 10).
  { intros t Ht. split; [apply exp_pos|]. pose proof (exp_ineq1_le t) as Q. pose proof (exp_pos t). rewrite exp_Ropp. apply Rle_trans with (/ (999 / 1000)); [apply Rinv_le_contravar; lra|lra]. }
  assert (TR : forall t, fval (zero : f64) - 4 * INR 1026 * uro * 1 <= t <= fval (one : f64) + 4 * INR 1026 * uro * 1 -> - / 1000 <= t).
  { intros t. rewrite Z0, Z1, INR_1026, uro_val. lra. }
  destruct (implicit_f64 root_pow decay_h zero one 1 1026%nat ie_iters ie_tol decay_rhs decay_jac (fun _ z => - z) (fun _ _ => -1) (fun t => exp (- t)) (fun t => exp (- t))
    1 3 1 0 0 0 4 (3 / 2) (bpow radix2 (-500)) 0 one) as (N & tv & xv & HN & E & L1 & L2 & H); try lra; try (split; reflexivity); try exact Gt.
  - rewrite Z0, Rabs_R0; lra.
  - rewrite Z1, Rabs_R1; lra.
  - rewrite Z0, Z1, Zh, INR_1026. lra.
  - rewrite INR_1026. change (IZR (2 ^ 47)) with 140737488355328. lra.
  - intros t z _ _ (V & F) _. destruct (fopp_val _ V F) as (A & B & C). exists (neg z). split; [reflexivity|]. split; [split; assumption|]. rewrite C, Rminus_eq_0, Rabs_R0. lra.
  - intros t z _ _ _ _. exists (neg one). split; [reflexivity|]. assert (Vo : fvalid (one : f64)) by (vm_compute; reflexivity). destruct (fopp_val (one : f64) Vo eq_refl) as (A & B & C). split; [split; assumption|]. rewrite C, Z1. replace (- (1) - -1) with 0 by ring. rewrite Rabs_R0. lra.
  - intros t z z' Ht Hz Hz'. pose proof (Ye t (TR t Ht)). apply Rcomplements.Rabs_le_between' in Hz. split; [|split; [|split]].
    + apply Rabs_le. lra.
    + rewrite Rabs_left; lra.
    + replace (- z - - z') with (- (z - z')) by ring. rewrite Rabs_Ropp. lra.
    + replace (- z - - z' - -1 * (z - z')) with 0 by ring. rewrite Rabs_R0. lra.
  - intros t Ht. pose proof (Ye t (TR t Ht)). split; [|split; [|split]].
    + auto_derive; [exact I|ring].
    + auto_derive; [exact I|ring].
    + rewrite Rabs_pos_eq; lra.
    + rewrite Rabs_pos_eq; lra.
  - fold w. lra.
  - fold w. lra.
  - apply (usable_less _ (bpow radix2 500)); [change 1 with (bpow radix2 0); apply bpow_le; lia|exact root_usable].
  - unfold ie_iters. lia.
  - fold w. fold c. assert ((1 / 2) ^ (ie_iters - 1) <= / 2 ^ 40).
    { unfold ie_iters. change (100 - 1)%nat with (40 + 59)%nat. rewrite pow_add. assert ((1 / 2) ^ 59 <= 1) by (rewrite <- (pow1 59); apply pow_incr; lra). assert ((1 / 2) ^ 40 <= / 2 ^ 40) by lra.
      assert (0 <= (1 / 2) ^ 40) by (apply pow_le; lra). assert (0 <= (1 / 2) ^ 59) by (apply pow_le; lra). nra. }
    assert (0 <= (1 / 2) ^ (ie_iters - 1)) by (apply pow_le; lra).
    assert ((1 / 2) ^ (ie_iters - 1) * (w * 3) <= / 2 ^ 40 * 1) by (apply Rmult_le_compat; lra). lra.
  - rewrite Z0, Z1. replace (-0) with 0 by ring. rewrite exp_0. replace (1 - 1) with 0 by ring. rewrite Rabs_R0. lra.
  - fold w. fold c. fold d. eapply Rle_trans; [apply (Ex 1026%nat (le_n _))|lra].
  - exists N, tv, xv. split; [exact HN|]. split; [exact E|]. split; [exact L1|]. split; [exact L2|]. intros i Hi. destruct (H i Hi) as (a & Ea & Ga & Ba). exists a. split; [exact Ea|]. split; [exact Ga|].
    fold w in Ba. fold c in Ba. fold d in Ba. eapply Rle_trans; [exact Ba|]. eapply Rle_trans; [apply Ex; lia|]. lra.
Qed.
