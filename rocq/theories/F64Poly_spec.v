(** Specification vocabulary for polynomial arithmetic in binary64. *)
From Coq Require Import Arith List ZArith Reals.
From Verif Require Import Scalar Poly_model Int_model F64_spec.
Local Open Scope R_scope.

(** The coefficient of x^t of the product of the n polynomials x + f 0, ..., x + f (n-1). *)
Fixpoint root_coef (n : nat) (f : nat -> R) (t : nat) {struct n} : R :=
  match n with
  | O => match t with O => 1 | S _ => 0 end
  | S m => match t with O => 0 | S t' => root_coef m f t' end + f m * root_coef m f t
  end.
(** The product (x + f 0) ... (x + f (n-1)) itself. *)
Fixpoint root_prod (n : nat) (f : nat -> R) (x : R) : R := match n with O => 1 | S m => root_prod m f x * (x + f m) end.

(** [T::from_f64(n as f64)] for T = f64 (src/algebra/abstr/polynomial.rs:639, 672). *)
#[global] Instance F64_nops : NOps f64 := { of_nat := fun n => int_as_f64 (Z.of_nat n) }.
