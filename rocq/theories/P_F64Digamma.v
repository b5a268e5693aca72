(** C102: the digamma function in binary64. *)
From Coq Require Import Arith Lia List Bool ZArith Reals Lra SpecFloat.
From Flocq Require Import Core.
From Verif Require Import Outcome Scalar RealOps Elem_model Int_model Ode_model Special_model Special_spec F64_spec F64Cplx_spec F64Libm_proofs F64Digamma_proofs.
Local Open Scope R_scope.

(** For 2^-1000 <= x <= 2^1000 and a logarithm accurate to [a] units roundoff, digamma returns a finite f64 after at most nine
    iterations of its loop, within a few hundred units roundoff (relative to 1/x + ln (x + 10) + 1) of Gauss's limit.  Both the
    rounding errors and the truncation of the asymptotic series are accounted for. *)
Theorem C102_digamma : forall (E : EOps f64) a x, 0 <= a <= 1000000 -> ln_acc a tln -> fgood x -> bpow radix2 (-1000) <= fval x <= bpow radix2 1000 ->
  forall fuel, (9 <= fuel)%nat -> exists v, sdigamma fuel x = Some v /\ fgood v /\
  forall psi, is_digamma (fval x) psi -> Rabs (fval v - psi) <= uro * (24 / fval x + (a + 4) * ln (fval x + 10) + 110).
Proof. exact digamma_f64. Qed.
Print Assumptions C102_digamma.
(** At the pole 0 the result is minus infinity. *)
Theorem C102_pole : forall (E : EOps f64) a, ln_acc a tln -> forall fuel, (9 <= fuel)%nat -> sdigamma (T := f64) fuel zero = Some (S754_infinity true).
Proof. exact digamma_pole. Qed.
Print Assumptions C102_pole.
Example C102_example : ln_acc 1 (@tln f64 exact_eops) /\ fgood one /\ bpow radix2 (-1000) <= fval one <= bpow radix2 1000 /\ exists psi, is_digamma (fval one) psi.
Proof.
  split; [exact ln_acc_ex|]. split; [split; reflexivity|]. rewrite F64Err_proofs.fval_one. split.
  - change 1 with (bpow radix2 0). split; apply bpow_le; lia.
  - apply Digamma_proofs.digamma_exists_pos. lra.
Qed.
