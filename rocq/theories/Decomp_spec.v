(** Specification vocabulary for the decompositions, on entry functions. *)
From Coq Require Import Arith List Bool Reals.
From Verif Require Import Outcome Scalar Matrix_model Vector_model Matrix_spec LU_spec.
Local Open Scope nat_scope.

(** Transposed entries. *)
Definition trf {T} (f : nat -> nat -> T) : nat -> nat -> T := fun i j => f j i.
(** Equality on the m x n entries. *)
Definition feq {T} (m n : nat) (f g : nat -> nat -> T) : Prop :=
  forall i j, i < m -> j < n -> f i j = g i j.
(** Q is orthogonal: Q Q^T = Q^T Q = 1. *)
Definition orthogonal {T} {O : Ops T} (m : nat) (q : nat -> nat -> T) : Prop :=
  feq m m (mulf m q (trf q)) delta /\ feq m m (mulf m (trf q) q) delta.
Definition symmetric {T} (n : nat) (f : nat -> nat -> T) : Prop := feq n n f (trf f).
(** Zeros below the first subdiagonal. *)
Definition hessenberg {T} {O : Ops T} (n : nat) (f : nat -> nat -> T) : Prop :=
  forall i j, i < n -> j < n -> j + 1 < i -> f i j = zero.
(** x^T A x *)
Definition quad (n : nat) (f : nat -> nat -> R) (x : nat -> R) : R :=
  sumn n (fun i => sumn n (fun j => x i * f i j * x j)%R).
(** A is positive definite. *)
Definition pos_def (n : nat) (f : nat -> nat -> R) : Prop :=
  forall x, (exists i, i < n /\ x i <> 0%R) -> (0 < quad n f x)%R.
(** Sum of squares and Euclidean norm. *)
Definition sumsq (n : nat) (f : nat -> R) : R := sumn n (fun i => f i * f i)%R.
Definition enorm (n : nat) (f : nat -> R) : R := sqrt (sumsq n f).
