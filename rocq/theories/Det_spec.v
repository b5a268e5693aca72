(** The determinant, characterised by its defining properties. *)
From Coq Require Import Arith List Bool.
From Verif Require Import Outcome Scalar Matrix_model Vector_model Matrix_spec LU_spec.
Import ListNotations.
Local Open Scope nat_scope.

(** [f] with row r replaced by [v]. *)
Definition rowset {T} (r : nat) (v : nat -> T) (f : nat -> nat -> T) : nat -> nat -> T :=
  fun i j => if i =? r then v j else f i j.

(** [D] is the determinant of n x n matrices: it depends on the n x n entries only, is linear in
    every row, vanishes if two rows agree and is 1 on the identity. *)
Record is_det {T} (O : Ops T) (n : nat) (D : (nat -> nat -> T) -> T) : Prop := mkDet {
  det_ext : forall f g, (forall i j, i < n -> j < n -> f i j = g i j) -> D f = D g;
  det_add : forall f r u v, r < n ->
    D (rowset r (fun j => add (u j) (v j)) f) = add (D (rowset r u f)) (D (rowset r v f));
  det_scale : forall f r c u, r < n ->
    D (rowset r (fun j => mul c (u j)) f) = mul c (D (rowset r u f));
  det_alt : forall f r s, r < n -> s < n -> r <> s -> (forall j, j < n -> f r j = f s j) -> D f = zero;
  det_one : D delta = one
}.

(** [s] maps every element of the list to the next one and the last one to [target]. *)
Fixpoint chain (s : nat -> nat) (xs : list nat) (target : nat) : Prop :=
  match xs with
  | [] => True
  | x :: t => match t with [] => s x = target | y :: _ => s x = y /\ chain s t target end
  end.

(** On 0..n-1, [s] is the cycle through the elements of [xs] (and fixes all others). *)
Definition cycle_on (n : nat) (s : nat -> nat) (xs : list nat) : Prop :=
  NoDup xs /\ (forall x, In x xs -> x < n) /\ chain s xs (hd 0 xs) /\
  (forall i, i < n -> ~ In i xs -> s i = i).

(** (-1)^k *)
Fixpoint alt {T} {O : Ops T} (k : nat) : T := match k with 0 => one | S k' => neg (alt k') end.
(** Left-to-right product from one. *)
Fixpoint prodn {T} {O : Ops T} (n : nat) (f : nat -> T) : T :=
  match n with 0 => one | S k => mul (prodn k f) (f k) end.
