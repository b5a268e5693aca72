(** Specification vocabulary for Newton's method in binary64, one equation. *)
From Coq Require Import ZArith Reals List.
From Verif Require Import Outcome Scalar RealOps Matrix_model Vector_model F64_spec F64Cplx_spec.
Import ListNotations.
Local Open Scope R_scope.

(** The user's f64 code maps every finite number within rho of r to a finite number within eps of F. *)
Definition evaluates_near (func : matrix f64 -> outcome (matrix f64)) (F : R -> R) (r rho eps : R) : Prop :=
  forall a, fgood a -> Rabs (fval a - r) <= rho ->
    exists v, func (mkMatrix 1 1 [a]) = Ret (mkMatrix 1 1 [v]) /\ fgood v /\ Rabs (fval v - F (fval a)) <= eps.

(** The length of a vector with one component a, |a| <= B, computed as powf(0 + powf(a, 2), 1/2), is right up to a factor of two
    and an absolute error of theta. *)
Definition length_usable (pw : f64 -> f64 -> f64) (B theta : R) : Prop :=
  forall a, fgood a -> Rabs (fval a) <= B ->
    let s := pw (add zero (pw a (@two f64 (F64_pops pw)))) (div one (@two f64 (F64_pops pw))) in
    fgood s /\ Rabs (fval a) / 2 - theta <= fval s <= 2 * Rabs (fval a) + theta.

(** F(r) = 0 up to the second order: on |x - r| <= rho the derivative J is at least m in modulus and F(x) differs from
    J(x) (x - r) by at most K (x - r)^2. *)
Definition regular_root (F J : R -> R) (r rho m K : R) : Prop :=
  forall x, Rabs (x - r) <= rho -> m <= Rabs (J x) /\ Rabs (F x - J x * (x - r)) <= K * (x - r) ^ 2.

(** The error bound after k steps, if one step turns the error e into at most a e^2 + b e + c. *)
Fixpoint newton_bound (a b c e : R) (k : nat) : R :=
  match k with O => e | S k => let e' := newton_bound a b c e k in a * e' ^ 2 + b * e' + c end.
