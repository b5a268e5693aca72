(** Specification vocabulary for binary64 arithmetic: which [spec_float]s are f64 values, their real
    value, and the constants of rounding-error bounds. *)
From Coq Require Import ZArith Reals SpecFloat.
From Flocq Require Import Core IEEE754.BinarySingleNaN.
From Verif Require Import Scalar.
Local Open Scope R_scope.

(** [spec_float] has non-canonical inhabitants; the values of Rust's [f64] are the valid ones. *)
Definition fvalid (x : f64) : Prop := valid_binary 53 1024 x = true.
(** Neither infinite nor NaN. *)
Definition ffin (x : f64) : bool := match x with S754_zero _ | S754_finite _ _ _ => true | _ => false end.
(** The real number a finite float stands for. *)
Definition fval (x : f64) : R := SF2R radix2 x.

(** Unit roundoff 2^-53 and half the smallest positive number, 2^-1075. *)
Definition uro : R := bpow radix2 (-53).
Definition eta64 : R := bpow radix2 (-1075).
(** Accumulated relative error of n rounded operations; at most n u / (1 - n u). *)
Definition gam (n : nat) : R := (1 + uro) ^ n - 1.

(** A square root function that is accurate: the square of a finite result is within a relative error of [gam k]
    of the argument.  The correctly rounded square root has k = 2. *)
Definition sqrt_acc (k : nat) (sq : f64 -> f64) : Prop :=
  forall x, fvalid x -> fvalid (sq x) /\
    (ffin (sq x) = true -> ffin x = true /\ Rabs (fval (sq x) ^ 2 - fval x) <= gam k * fval (sq x) ^ 2).
