(** Specification vocabulary for complex arithmetic in binary64 and for the accuracy of the elementary functions. *)
From Coq Require Import ZArith Reals SpecFloat.
From Flocq Require Import Core.
From Verif Require Import Scalar Complex_model F64_spec.
Local Open Scope R_scope.

(** A finite f64. *)
Definition fgood (x : f64) : Prop := fvalid x /\ ffin x = true.
(** A complex number with finite f64 components, and the complex number it stands for. *)
Definition cgood (z : cplx f64) : Prop := fgood (re z) /\ fgood (im z).
Definition cval (z : cplx f64) : cplx R := mkC (fval (re z)) (fval (im z)).
(** The modulus. *)
Definition cmod (z : cplx R) : R := sqrt (re z * re z + im z * im z).
(** Both components are at most b in modulus / the larger component is at least b in modulus. *)
Definition cbelow (b : R) (z : cplx f64) : Prop := Rabs (fval (re z)) <= b /\ Rabs (fval (im z)) <= b.
Definition cabove (b : R) (z : cplx f64) : Prop := b <= Rmax (Rabs (fval (re z))) (Rabs (fval (im z))).

(** An exponential function whose relative error is at most [a] units roundoff for |x| <= 700. *)
Definition exp_acc (a : R) (e : f64 -> f64) : Prop := forall x, fgood x -> Rabs (fval x) <= 700 ->
  fgood (e x) /\ Rabs (fval (e x) - exp (fval x)) <= a * uro * exp (fval x).
(** An implementation [f] of the bounded function [F] whose absolute error is at most [a] units roundoff. *)
Definition trig_acc (a : R) (f : f64 -> f64) (F : R -> R) : Prop := forall x, fgood x ->
  fgood (f x) /\ Rabs (fval (f x) - F (fval x)) <= a * uro.
(** A natural logarithm whose relative error is at most [a] units roundoff. *)
Definition ln_acc (a : R) (l : f64 -> f64) : Prop := forall x, fgood x -> 0 < fval x ->
  fgood (l x) /\ Rabs (fval (l x) - ln (fval x)) <= a * uro * Rabs (ln (fval x)) + eta64.
