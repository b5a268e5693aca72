(** Specification vocabulary for the example problems. *)
From Coq Require Import List Reals.
From Coquelicot Require Import Coquelicot.
From Verif Require Import Outcome Scalar Matrix_model Vector_model Elem_model Problem_model.
Import ListNotations.
Local Open Scope R_scope.

(** Column vectors given by their components. *)
Definition col3 {T} (a b c : T) : vector T := mkMatrix 3 1 [a; b; c].
Definition col2 {T} (a b : T) : vector T := mkMatrix 2 1 [a; b].

(** (y1, y2, y3) satisfies the differential equation with right-hand side [f] at x. *)
Definition solves3 (f : R -> vector R -> outcome (vector R)) (y1 y2 y3 : R -> R) (x : R) : Prop :=
  exists d1 d2 d3, f x (col3 (y1 x) (y2 x) (y3 x)) = Ret (col3 d1 d2 d3) /\ is_derive y1 x d1 /\ is_derive y2 x d2 /\ is_derive y3 x d3.
Definition solves2 (f : R -> vector R -> outcome (vector R)) (y1 y2 : R -> R) (x : R) : Prop :=
  exists d1 d2, f x (col2 (y1 x) (y2 x)) = Ret (col2 d1 d2) /\ is_derive y1 x d1 /\ is_derive y2 x d2.
