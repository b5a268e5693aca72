(** Specification vocabulary for matrices: what it means for a matrix value to hold given
    entries, observed only through [dim] and [get] (plus the storage length, which the public
    API keeps equal to rows * columns). *)
From Coq Require Import Arith List Bool.
From Verif Require Import Outcome Scalar Matrix_model Vector_model.

(** [A] is an m x n matrix whose entry at (i,j) is [f i j]. *)
Definition is_mat {T} (A : matrix T) (m n : nat) (f : nat -> nat -> T) : Prop :=
  dim A = (m, n) /\ length (data A) = m * n /\
  forall i j, i < m -> j < n -> mget A i j = Ret (f i j).

(** Every matrix a user can build satisfies this ([new] asserts it, all operations keep it). *)
Definition wf {T} (A : matrix T) : Prop := length (data A) = rows A * cols A.

(** Column and row vectors. *)
Definition is_col {T} (v : vector T) (m : nat) (f : nat -> T) : Prop :=
  is_mat v m 1 (fun i _ => f i).
Definition is_row {T} (v : vector T) (n : nat) (f : nat -> T) : Prop :=
  is_mat v 1 n (fun _ j => f j).

(** Functional matrices. *)
Definition delta {T} {O : Ops T} (i j : nat) : T := if i =? j then one else zero.
Definition fupd {T} (f : nat -> nat -> T) (a b : nat) (v : T) : nat -> nat -> T :=
  fun i j => if (i =? a) && (j =? b) then v else f i j.
Definition mulf {T} {O : Ops T} (k : nat) (f g : nat -> nat -> T) : nat -> nat -> T :=
  fun i j => sumn k (fun l => mul (f i l) (g l j)).
