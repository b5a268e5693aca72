(** Specification vocabulary for decompositions, on entry functions. *)
From Coq Require Import Arith List Bool.
From Verif Require Import Outcome Scalar Matrix_model Vector_model Matrix_spec.
Local Open Scope nat_scope.

Section S.
Context {T : Type} {O : Ops T}.

(** Ones on the diagonal, zeros above it. *)
Definition unit_lower (n : nat) (l : nat -> nat -> T) : Prop :=
  forall i j, i < n -> j < n -> (i = j -> l i j = one) /\ (i < j -> l i j = zero).
(** Zeros below the diagonal. *)
Definition upper (m n : nat) (u : nat -> nat -> T) : Prop :=
  forall i j, i < m -> j < n -> j < i -> u i j = zero.
Definition lower (m n : nat) (u : nat -> nat -> T) : Prop :=
  forall i j, i < m -> j < n -> i < j -> u i j = zero.

(** [s] permutes 0 .. n-1. *)
Definition perm_on (n : nat) (s : nat -> nat) : Prop :=
  (forall i, i < n -> s i < n) /\ (forall i j, i < n -> j < n -> s i = s j -> i = j).
(** Entry function of a permutation matrix: row i has its 1 in column s i. *)
Definition perm_fun (s : nat -> nat) : nat -> nat -> T := fun i j => if s i =? j then one else zero.
End S.
