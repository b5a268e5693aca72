(** Specification vocabulary for the logarithm of the gamma function in binary64. *)
From Coq Require Import ZArith Reals SpecFloat.
From Verif Require Import Scalar Elem_model F64_spec F64Cplx_spec.
Local Open Scope R_scope.

(** The platform's constant e, correct to 4 units roundoff. *)
Definition e_acc (E : EOps f64) : Prop := fgood (@te f64 E) /\ Rabs (fval (@te f64 E) - exp 1) <= 4 * uro.
(** The magnitude of the quantities that ln_gamma adds up at [x]. *)
Definition lg_scale (x : R) : R := x * ln (x + 11) + Rabs (ln x).
