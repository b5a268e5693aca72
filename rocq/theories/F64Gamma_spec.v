(** Specification vocabulary for the gamma and beta functions in binary64: how accurate the elementary functions of the platform are. *)
From Coq Require Import ZArith Reals SpecFloat.
From Flocq Require Import Core.
From Verif Require Import Scalar Elem_model F64_spec F64Cplx_spec.
Local Open Scope R_scope.

(** A power function whose relative error is at most [a] units roundoff for positive bases, while the power is far from underflow and overflow. *)
Definition pow_acc (a : R) (pw : f64 -> f64 -> f64) : Prop := forall x y, fgood x -> fgood y -> 0 < fval x ->
  bpow radix2 (-1020) <= Rpower (fval x) (fval y) <= bpow radix2 1020 ->
  fgood (pw x y) /\ Rabs (fval (pw x y) - Rpower (fval x) (fval y)) <= a * uro * Rpower (fval x) (fval y).
(** A power function that returns infinity when the power is 2^1024 or more. *)
Definition pow_overflow (pw : f64 -> f64 -> f64) : Prop := forall x y, fgood x -> fgood y -> 0 < fval x ->
  bpow radix2 1024 <= Rpower (fval x) (fval y) -> pw x y = S754_infinity false.
(** A sine whose relative error is at most [a] units roundoff between 2^-1010 and 2. *)
Definition sin_acc (a : R) (s : f64 -> f64) : Prop := forall x, fgood x -> bpow radix2 (-1010) <= fval x <= 2 ->
  fgood (s x) /\ Rabs (fval (s x) - sin (fval x)) <= a * uro * sin (fval x).
(** All of them, with the constant pi correct to 4 units roundoff. *)
Definition libm_acc (a : R) (pw : f64 -> f64 -> f64) (E : EOps f64) : Prop :=
  pow_acc a pw /\ exp_acc a (@texp f64 E) /\ sin_acc a (@tsin f64 E) /\ fgood (@tpi f64 E) /\ Rabs (fval (@tpi f64 E) - PI) <= 4 * uro.
