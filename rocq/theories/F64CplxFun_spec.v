(** Specification vocabulary for the complex elementary functions in binary64. *)
From Coq Require Import Reals SpecFloat.
From Verif Require Import Scalar Elem_model Complex_model F64_spec F64Cplx_spec.
Local Open Scope R_scope.

(** Sine, cosine, their hyperbolic counterparts and the principal logarithm of x + i y by real and imaginary part. *)
Definition sin_c (z : cplx R) : cplx R := mkC (sin (re z) * cosh (im z)) (cos (re z) * sinh (im z)).
Definition cos_c (z : cplx R) : cplx R := mkC (cos (re z) * cosh (im z)) (- (sin (re z) * sinh (im z))).
Definition sinh_c (z : cplx R) : cplx R := mkC (sinh (re z) * cos (im z)) (cosh (re z) * sin (im z)).
Definition cosh_c (z : cplx R) : cplx R := mkC (cosh (re z) * cos (im z)) (sinh (re z) * sin (im z)).
Definition ln_c (z : cplx R) : cplx R := mkC (ln (cmod z)) (R_atan2 (im z) (re z)).
(** A two-argument arctangent whose absolute error is at most [b] units roundoff, away from the branch cut along the negative real axis
    (on the cut the sign of a zero decides between -PI and PI). *)
Definition atan2_acc (b : R) (f : f64 -> f64 -> f64) : Prop := forall y x, fgood y -> fgood x -> fval y <> 0 \/ 0 < fval x ->
  fgood (f y x) /\ Rabs (fval (f y x) - R_atan2 (fval y) (fval x)) <= b * uro.
