(** Specification vocabulary for binary32 arithmetic: which [spec_float]s are f32 values, their real
    value, and the constants of rounding-error bounds. *)
From Coq Require Import ZArith Reals SpecFloat.
From Flocq Require Import Core IEEE754.BinarySingleNaN.
From Verif Require Import Scalar.
From Verif Require Import F32_model.
#[local] Existing Instance F32_ops.
#[local] Existing Instance F32_zops.
Local Open Scope R_scope.

(** [spec_float] has non-canonical inhabitants; the values of Rust's [f32] are the valid ones. *)
Definition fvalid (x : f32) : Prop := valid_binary 24 128 x = true.
(** Neither infinite nor NaN. *)
Definition ffin (x : f32) : bool := match x with S754_zero _ | S754_finite _ _ _ => true | _ => false end.
(** The real number a finite float stands for. *)
Definition fval (x : f32) : R := SF2R radix2 x.

(** Unit roundoff 2^-24 and half the smallest positive number, 2^-150. *)
Definition uro : R := bpow radix2 (-24).
Definition eta32 : R := bpow radix2 (-150).
(** Accumulated relative error of n rounded operations; at most n u / (1 - n u). *)
Definition gam (n : nat) : R := (1 + uro) ^ n - 1.

(** A square root function that is accurate: the square of a finite result is within a relative error of [gam k]
    of the argument.  The correctly rounded square root has k = 2. *)
Definition sqrt_acc (k : nat) (sq : f32 -> f32) : Prop :=
  forall x, fvalid x -> fvalid (sq x) /\
    (ffin (sq x) = true -> ffin x = true /\ Rabs (fval (sq x) ^ 2 - fval x) <= gam k * fval (sq x) ^ 2).
