(** Model of approximate equality: src/algebra/abstr/abs_diff_eq.rs,
    src/algebra/abstr/relative_eq.rs and the matrix and vector instances.  Definitions only. *)
From Coq Require Import List Bool SpecFloat.
From Verif Require Import Outcome Scalar Matrix_model Vector_model.
Import ListNotations.

(** [is_infinite] of the float type; separate from [Ops] because only floats have it. *)
Class InfOps (T : Type) := { is_infinite : T -> bool }.
(** Reals have no infinity. *)
#[global] Instance R_inf : InfOps Rdefinitions.R := { is_infinite := fun _ => false }.
(** f64::is_infinite, used in src/algebra/abstr/relative_eq.rs:130-133. *)
#[global] Instance F64_inf : InfOps f64 :=
  { is_infinite := fun x => match x with S754_infinity _ => true | _ => false end }.

Section Model.
Context {T : Type} {O : Ops T} {I : InfOps T}.
Local Open Scope sc_scope.

(** src/algebra/abstr/abs_diff_eq.rs:131-134 (floats and signed integers without overflow), 80-83. *)
Definition sabs_diff_eq (a b eps : T) : bool := leb (tabs (a - b)) eps.
(** src/algebra/abstr/abs_diff_eq.rs:80-83 [abs_diff_ne]. *)
Definition sabs_diff_ne (a b eps : T) : bool := negb (sabs_diff_eq a b eps).

(** src/algebra/abstr/relative_eq.rs:124-153, 100-107. *)
Definition srelative_eq (a b eps max_relative : T) : bool :=
  if eqb a b then true
  else if is_infinite a || is_infinite b then false
  else
    let abs_diff := tabs (a - b) in
    if leb abs_diff eps then true
    else
      let abs_self := tabs a in
      let abs_other := tabs b in
      let largest := if ltb abs_self abs_other then abs_other else abs_self in
      leb abs_diff (largest * max_relative).
(** src/algebra/abstr/relative_eq.rs:100-107 [relative_ne]. *)
Definition srelative_ne (a b eps max_relative : T) : bool := negb (srelative_eq a b eps max_relative).

(** [for (a, b) in xs.zip(ys) { body }] followed by [return true]; the body may return early. *)
Fixpoint zip_loop (body : T -> T -> option bool) (xs ys : list T) : bool :=
  match xs, ys with
  | x :: xs', y :: ys' =>
      match body x y with
      | Some r => r
      | None => zip_loop body xs' ys'
      end
  | _, _ => true
  end.

(** src/algebra/linear/matrix/matrix.rs:1132-1145 [abs_diff_eq] of matrices ([return true] inside the loop body). *)
Definition mabs_diff_eq (A B : matrix T) (eps : T) : bool :=
  zip_loop (fun a b => if sabs_diff_ne a b eps then Some false else Some true) (data A) (data B).

(** src/algebra/linear/matrix/matrix.rs:1166-1179 [relative_eq] of matrices. *)
Definition mrelative_eq (A B : matrix T) (eps max_relative : T) : bool :=
  zip_loop (fun a b => if srelative_ne a b eps max_relative then Some false else Some true)
    (data A) (data B).

(** src/algebra/linear/vector/vector.rs:776-779 and 800-803: delegate to the matrix. *)
Definition vabs_diff_eq (v w : vector T) (eps : T) : bool := mabs_diff_eq v w eps.
(** src/algebra/linear/vector/vector.rs:800-803 [relative_eq]. *)
Definition vrelative_eq (v w : vector T) (eps max_relative : T) : bool := mrelative_eq v w eps max_relative.

End Model.
