(** Specification vocabulary for the implicit Euler solver in binary64, one equation. *)
From Coq Require Import Reals List.
From Verif Require Import Outcome Scalar Matrix_model Vector_model F64_spec F64Cplx_spec.
Import ListNotations.
Local Open Scope R_scope.

(** The user's f64 code maps every finite time in [lo, hi] and every finite state within rho of the curve y to a
    finite number within eps of F. *)
Definition evaluates_tube (f : f64 -> vector f64 -> outcome (matrix f64)) (F : R -> R -> R) (lo hi : R) (y : R -> R) (rho eps : R) : Prop :=
  forall t z, fgood t -> lo <= fval t <= hi -> fgood z -> Rabs (fval z - y (fval t)) <= rho ->
    exists v, f t (mkMatrix 1 1 [z]) = Ret (mkMatrix 1 1 [v]) /\ fgood v /\ Rabs (fval v - F (fval t) (fval z)) <= eps.

(** Within rho of the curve y: F is bounded by B, Lipschitz in the state with constant L, and J is its derivative in the
    state up to the second order, with constant K. *)
Definition regular_tube (F J : R -> R -> R) (lo hi : R) (y : R -> R) (rho B L K : R) : Prop :=
  forall t z z', lo <= t <= hi -> Rabs (z - y t) <= rho -> Rabs (z' - y t) <= rho ->
    Rabs (F t z) <= B /\ Rabs (J t z) <= L /\ Rabs (F t z - F t z') <= L * Rabs (z - z') /\
    Rabs (F t z - F t z' - J t z * (z - z')) <= K * (z - z') ^ 2.
