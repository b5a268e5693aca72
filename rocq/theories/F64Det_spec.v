(** Vocabulary for the error of the determinant. *)
From Coq Require Import Reals Arith.
From Verif Require Import Scalar Matrix_spec.
Local Open Scope R_scope.

(** The real product u 0 * ... * u (n-1). *)
Fixpoint rprod (n : nat) (u : nat -> R) : R := match n with 0%nat => 1 | S k => rprod k u * u k end.
(** The sum over k < n of |u (k+1)| * ... * |u (n-1)|: what a perturbation of 1 after each of the n factors grows to. *)
Fixpoint tails (n : nat) (u : nat -> R) : R := match n with 0%nat => 0 | S k => tails k u * Rabs (u k) + 1 end.
(** [inv] is a left inverse of the n x n matrix [a]. *)
Definition left_inverse (n : nat) (inv a : nat -> nat -> R) : Prop :=
  forall i c, (i < n)%nat -> (c < n)%nat -> @sumn R R_ops n (fun r => inv i r * a r c) = if (i =? c)%nat then 1 else 0.
