(** Specification vocabulary for the eigenvalue and singular value properties. *)
From Coq Require Import Arith List Bool Reals.
From Verif Require Import Outcome Scalar Matrix_model Vector_model Matrix_spec LU_spec Decomp_spec.
Local Open Scope nat_scope.

(** Nonzero entries only on the diagonal and on the diagonal above it. *)
Definition bidiagonal (m n : nat) (f : nat -> nat -> R) : Prop :=
  forall i j, i < m -> j < n -> j < i \/ i + 1 < j -> f i j = 0%R.
(** Nonzero entries only on the diagonal. *)
Definition diagonal (m n : nat) (f : nat -> nat -> R) : Prop :=
  forall i j, i < m -> j < n -> i <> j -> f i j = 0%R.
(** Squared Frobenius norm: the sum of the squares of all entries. *)
Definition frob2 (m n : nat) (f : nat -> nat -> R) : R := sumn m (fun i => sumn n (fun j => f i j * f i j)%R).
(** [l] is an eigenvalue: A x = l x for some x that is not zero. *)
Definition is_eigenvalue (n : nat) (f : nat -> nat -> R) (l : R) : Prop :=
  exists x, (exists i, i < n /\ x i <> 0%R) /\ forall i, i < n -> sumn n (fun j => f i j * x j)%R = (l * x i)%R.
(** [x] is an eigenvector for [l]. *)
Definition is_eigenvector (n : nat) (f : nat -> nat -> R) (l : R) (x : nat -> R) : Prop :=
  (exists i, i < n /\ x i <> 0%R) /\ forall i, i < n -> sumn n (fun j => f i j * x j)%R = (l * x i)%R.
