(** Specification vocabulary for the Euclidean norm in binary64. *)
From Coq Require Import ZArith Reals.
From Flocq Require Import Core.
From Verif Require Import Scalar F64_spec F64Cplx_spec.
Local Open Scope R_scope.

(** A square root whose finite results belong to arguments >= 0 and have a relative error of at most [gam k].
    The correctly rounded square root has k = 1. *)
Definition root_acc (k : nat) (sq : f64 -> f64) : Prop := forall x, fvalid x -> fvalid (sq x) /\
  (ffin (sq x) = true -> ffin x = true /\ 0 <= fval x /\ Rabs (fval (sq x) - sqrt (fval x)) <= gam k * sqrt (fval x)).
(** It is defined on all finite numbers >= 0. *)
Definition root_total (sq : f64 -> f64) : Prop := forall x, fgood x -> 0 <= fval x -> ffin (sq x) = true.
(** A square that is finite, not negative and at most 2^1001 for arguments up to 2^500. *)
Definition square_total (sq : f64 -> f64) : Prop := forall x, fgood x -> Rabs (fval x) <= bpow radix2 500 ->
  ffin (sq x) = true /\ 0 <= fval (sq x) <= bpow radix2 1001.
