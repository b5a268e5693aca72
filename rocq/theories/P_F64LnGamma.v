(** C121: the logarithm of the gamma function in binary64. *)
From Coq Require Import Arith Lia List Bool ZArith Reals Lra SpecFloat.
From Flocq Require Import Core.
From Verif Require Import Outcome Scalar RealOps Elem_model Int_model Ode_model Special_model Special_spec Stat_spec F64_spec F64Cplx_spec F64Gamma_spec F64LnGamma_spec
  F64GammaEx_proofs F64LnGamma_proofs F64LnGammaEx_proofs.
Local Open Scope R_scope.

(** For 2^-600 <= x <= 10^6 and elementary functions accurate to [a] units roundoff, ln_gamma returns a finite f64. Its distance from ln Gamma(x) is
    at most 4e-17 (the approximation) plus 97000 + 40 a + (12 + 2 a) (x ln (x + 11) + |ln x|) units roundoff (the arithmetic). *)
Theorem C121_ln_gamma : forall (pw : f64 -> f64 -> f64) (E : EOps f64) a, 0 <= a <= 1000 -> libm_acc a pw E -> ln_acc a (@tln f64 E) -> e_acc E ->
  forall (x : f64) g, fgood x -> bpow radix2 (-600) <= fval x <= 1000000 -> is_gamma (fval x) g ->
  fgood (@sln_gamma f64 _ (F64_pops pw) E _ x) /\
  Rabs (fval (@sln_gamma f64 _ (F64_pops pw) E _ x) - ln g) <= 4 / 100000000000000000 + (97000 + 40 * a + (12 + 2 * a) * lg_scale (fval x)) * uro.
Proof. exact ln_gamma_f64. Qed.
Print Assumptions C121_ln_gamma.
(** At the integers: the logarithm of the factorial. *)
Theorem C121_log_factorial : forall (pw : f64 -> f64 -> f64) (E : EOps f64) a, 0 <= a <= 1000 -> libm_acc a pw E -> ln_acc a (@tln f64 E) -> e_acc E ->
  forall (x : f64) (n : nat), fgood x -> fval x = INR n + 1 -> INR n <= 999999 ->
  fgood (@sln_gamma f64 _ (F64_pops pw) E _ x) /\
  Rabs (fval (@sln_gamma f64 _ (F64_pops pw) E _ x) - ln (INR (fact n))) <= 4 / 100000000000000000 + (97000 + 40 * a + (12 + 2 * a) * lg_scale (INR n + 1)) * uro.
Proof. exact ln_fact_f64. Qed.
Print Assumptions C121_log_factorial.
(** The scale stays moderate: at most 28 for x in [1/2, 8], and at most 35 x for x in [1, 10^6]. *)
Theorem C121_scale : (forall x, 1 / 2 <= x <= 8 -> 0 <= lg_scale x <= 28) /\ (forall x, 1 <= x <= 1000000 -> 0 <= lg_scale x <= 35 * x).
Proof. split; [exact lg_scale_small|exact lg_scale_large]. Qed.
Print Assumptions C121_scale.
(** Correctly rounded functions meet the hypotheses, and ln_gamma(1) is within 1.2e-11 of ln Gamma(1) = 0. *)
Example C121_example : (libm_acc 2 exact_pow F64Libm_proofs.exact_eops /\ ln_acc 2 (@tln f64 F64Libm_proofs.exact_eops) /\ e_acc F64Libm_proofs.exact_eops) /\
  Rabs (fval (@sln_gamma f64 _ (F64_pops exact_pow) F64Libm_proofs.exact_eops _ one)) <= 12 / 1000000000000.
Proof. split; [exact hyps_ex|exact ln_gamma_one]. Qed.
