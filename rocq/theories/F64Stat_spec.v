(** Specification vocabulary for the statistics functions in binary64. *)
From Coq Require Import ZArith Reals List SpecFloat.
From Flocq Require Import Core.
From Verif Require Import Scalar Matrix_spec F64_spec F64Cplx_spec.
Local Open Scope R_scope.

(** A function that squares accurately: a finite result is within a relative error of [gam k] of the square, up to underflow.
    The rounded product x * x has k = 1. *)
Definition square_acc (k : nat) (sq : f64 -> f64) : Prop := forall x, fvalid x -> fvalid (sq x) /\
  (ffin (sq x) = true -> ffin x = true /\ Rabs (fval (sq x) - fval x ^ 2) <= gam k * fval x ^ 2 + eta64).

(** The arithmetic mean of a sample of real numbers, the mean of its absolute values, and its (unbiased) variance. *)
Fixpoint total (l : list R) : R := match l with nil => 0 | cons x r => x + total r end.
Definition average (l : list R) : R := total l / INR (length l).
Definition average_abs (l : list R) : R := average (map Rabs l).
Definition unbiased_variance (l : list R) : R := total (map (fun x => (x - average l) ^ 2) l) / INR (length l - 1).

(** The end points of an interval: finite, at most 2^1022 in modulus (their difference does not overflow), in order. *)
Definition interval (a b : f64) : Prop := fgood a /\ fgood b /\ Rabs (fval a) <= bpow radix2 1022 /\ Rabs (fval b) <= bpow radix2 1022 /\ fval a < fval b.
(** A rate l and a point x >= 0 for which l x is far from the overflow threshold of the exponential. *)
Definition in_range (l x : f64) : Prop := fgood l /\ fgood x /\ 0 < fval l <= bpow radix2 1000 /\ 0 <= fval x /\ fval l * fval x <= 690.
