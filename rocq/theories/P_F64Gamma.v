(** C115: the gamma and beta functions in binary64. *)
From Coq Require Import Arith Lia List Bool ZArith Reals Lra SpecFloat.
From Flocq Require Import Core.
From Verif Require Import Outcome Scalar RealOps Elem_model Int_model Ode_model Special_model Special_spec Stat_spec F64_spec F64Cplx_spec F64Gamma_spec
  F64GammaFun_proofs F64GammaEx_proofs.
Local Open Scope R_scope.

(** For 2^-600 <= z <= 141 and elementary functions accurate to [a] units roundoff, gamma returns a finite f64 whose relative
    distance from Gamma(z) is at most 3.5e-12 (the Lanczos approximation) plus 6 a + 5000 units roundoff (the arithmetic). *)
Theorem C115_gamma : forall (pw : f64 -> f64 -> f64) (E : EOps f64) a, 0 <= a <= 1000 -> libm_acc a pw E ->
  forall (z : f64) g, fgood z -> bpow radix2 (-600) <= fval z <= 141 -> is_gamma (fval z) g ->
  exists v, @sgamma f64 _ (F64_pops pw) E z = Ret v /\ fgood v /\ Rabs (fval v - g) <= (35 / 10000000000000 + (6 * a + 5000) * uro) * g.
Proof. exact gamma_f64. Qed.
Print Assumptions C115_gamma.
(** The beta function, while the product Gamma(p) Gamma(q) and B(p,q) are representable with room to spare. *)
Theorem C115_beta : forall (pw : f64 -> f64 -> f64) (E : EOps f64) a, 0 <= a <= 1000 -> libm_acc a pw E ->
  forall (p q : f64) B ga gb, fgood p -> fgood q -> bpow radix2 (-600) <= fval p -> bpow radix2 (-600) <= fval q -> fval p + fval q <= 141 ->
  euler_beta (fval p) (fval q) B -> is_gamma (fval p) ga -> is_gamma (fval q) gb ->
  bpow radix2 (-999) <= ga * gb <= bpow radix2 1022 -> bpow radix2 (-999) <= B <= bpow radix2 1022 ->
  exists v, @sbeta f64 _ (F64_pops pw) E p q = Ret v /\ fgood v /\ Rabs (fval v - B) <= (105 / 10000000000000 + (16 * a + 15000) * uro) * B.
Proof. exact beta_f64. Qed.
Print Assumptions C115_beta.
(** The bound 141 is not cosmetic: the power inside the Lanczos approximation overflows well before the gamma function does, so
    gamma(150) is infinity although Gamma(150) = 149! is below 2^900 (the largest f64 is about 2^1024). *)
Theorem C115_overflow_refuted : forall (pw : f64 -> f64 -> f64) (E : EOps f64) a, 0 <= a <= 1000 -> libm_acc a pw E -> pow_overflow pw ->
  (exists g, is_gamma 150 g /\ 1 <= g <= bpow radix2 900) /\ exists z : f64, fgood z /\ fval z = 150 /\ @sgamma f64 _ (F64_pops pw) E z = Ret (S754_infinity false).
Proof.
  intros pw E a Ha HL HO. split; [exact gamma_150_true|]. exists (lit 150 1). split; [exact (proj1 num150)|]. split; [exact (proj2 num150)|]. exact (gamma_150 pw E a Ha HL HO).
Qed.
Print Assumptions C115_overflow_refuted.
(** At 0 gamma panics, whatever the elementary functions are; with a negative zero as well. *)
Theorem C115_zero : forall (pw : f64 -> f64 -> f64) (E : EOps f64) s, @sgamma f64 _ (F64_pops pw) E (S754_zero s) = Panic.
Proof. intros pw E s. destruct s; reflexivity. Qed.
Print Assumptions C115_zero.
(** Correctly rounded functions meet the hypotheses, and Gamma(1) = 1, B(1,1) = 1. *)
Example C115_example : libm_acc 2 exact_pow F64Libm_proofs.exact_eops /\ pow_overflow exact_pow /\
  fgood one /\ bpow radix2 (-600) <= fval one <= 141 /\ is_gamma (fval one) 1 /\
  exists B ga gb, euler_beta (fval one) (fval one) B /\ is_gamma (fval one) ga /\ is_gamma (fval one) gb /\
    bpow radix2 (-999) <= ga * gb <= bpow radix2 1022 /\ bpow radix2 (-999) <= B <= bpow radix2 1022.
Proof.
  destruct libm_acc_ex as (A & B). split; [exact A|]. split; [exact B|]. split; [split; reflexivity|]. rewrite F64Err_proofs.fval_one.
  assert (G1 : is_gamma 1 1) by (apply GammaAll_proofs.euler_is_gamma; [lra|exact Stirling_proofs.euler_gamma_1]).
  assert (P : forall e, (e <= 0)%Z -> bpow radix2 e <= 1) by (intros e H; change 1 with (bpow radix2 0); now apply bpow_le).
  assert (Q : 1 <= bpow radix2 1022) by (change 1 with (bpow radix2 0); apply bpow_le; lia).
  split; [split; [apply P; lia|lra]|]. split; [exact G1|]. destruct (BetaAcc_proofs.beta_exists 1 1 ltac:(lra) ltac:(lra)) as (b & Hb).
  exists b, 1, 1. split; [exact Hb|]. split; [exact G1|]. split; [exact G1|]. rewrite Rmult_1_l. split; [split; [apply P; lia|exact Q]|].
  assert (E2 : b = 1).
  { rewrite (BetaAcc_proofs.beta_gamma 1 1 b 1 1 1 ltac:(lra) ltac:(lra) Hb Stirling_proofs.euler_gamma_1 Stirling_proofs.euler_gamma_1); [field|].
    pose proof (GammaFun_proofs.euler_gamma_S 1 1 ltac:(lra) Stirling_proofs.euler_gamma_1) as G. now rewrite Rmult_1_l in G. }
  rewrite E2. split; [apply P; lia|exact Q].
Qed.
