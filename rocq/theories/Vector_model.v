(** Model of the vector type (a matrix with one row or one column):
    src/algebra/linear/vector/vector.rs and its operators, together with the matrix functions
    that take or return vectors.  Definitions only. *)
From Coq Require Import Arith List Bool.
From Verif Require Import Outcome Scalar Matrix_model Transpose_model.
Import ListNotations.
Local Open Scope nat_scope.

(** src/algebra/linear/vector/vector.rs:69-74: [struct Vector { data: Matrix }]; the wrapper is dropped, a vector is its
    matrix. *)
Definition vector := matrix.

(** src/algebra/linear/vector/vector.rs:203-207 [new_row]. *)
Definition vnew_row {T} (n : nat) (d : list T) : outcome (vector T) :=
  let! _ := rassert (n =? length d) in mnew 1 n d.

(** src/algebra/linear/vector/vector.rs:222-226 [new_column]. *)
Definition vnew_column {T} (m : nat) (d : list T) : outcome (vector T) :=
  let! _ := rassert (m =? length d) in mnew m 1 d.

(** src/algebra/linear/vector/vector.rs:37-67 macro [vector!]: comma form gives a row, semicolon form a column. *)
Definition vector_macro_row {T} (d : list T) : outcome (vector T) := vnew_row (length d) d.
(** src/algebra/linear/vector/vector.rs:37-67 (continued). *)
Definition vector_macro_column {T} (d : list T) : outcome (vector T) := vnew_column (length d) d.

(** src/algebra/linear/vector/vector.rs:486-503 [get]. *)
Definition vvget {T} (v : vector T) (i : nat) : outcome T :=
  let! _ := rassert ((rows v =? 1) || (cols v =? 1)) in
  if rows v =? 1
  then let! _ := rassert (i <? cols v) in mget v 0 i
  else let! _ := rassert (i <? rows v) in mget v i 0.

(** src/algebra/linear/vector/vector.rs:448-465 [*get_mut(i) = x]. *)
Definition vvset {T} (v : vector T) (i : nat) (x : T) : outcome (vector T) :=
  let! _ := rassert ((rows v =? 1) || (cols v =? 1)) in
  if rows v =? 1
  then let! _ := rassert (i <? cols v) in mset v 0 i x
  else let! _ := rassert (i <? rows v) in mset v i 0 x.

Section Model.
Context {T : Type} {O : Ops T}.
Local Open Scope sc_scope.

(** src/algebra/linear/vector/vector.rs:539-542 [zero]. *)
Definition vzero (m : nat) : vector T := mzero m 1.

(** src/algebra/linear/vector/vector.rs:560-570 [one]. *)
Definition vone (m : nat) : outcome (vector T) :=
  let! d := for_loop 0%nat m (fun _ d => Ret (d ++ [1])) [] in
  vnew_column m d.

(** src/algebra/linear/vector/vector.rs:228-232 [apply], 147-155 [neg]. *)
Definition vapply (f : T -> T) (v : vector T) : vector T := mapply f v.
(** src/algebra/linear/vector/vector.rs:228-232 (continued). *)
Definition vneg (v : vector T) : vector T := vapply (fun x => - x) v.

(** src/algebra/linear/vector/vector.rs:279-284 [transpose]. *)
Definition vtranspose (v : vector T) : outcome (vector T) := mtranspose v.

(** src/algebra/linear/vector/add/native.rs:96-99, src/algebra/linear/vector/sub/native.rs:93-96. *)
Definition vadd (v w : vector T) : outcome (vector T) := madd v w.
(** src/algebra/linear/vector/sub/native.rs:93-96 (continued). *)
Definition vsub (v w : vector T) : outcome (vector T) := msub v w.
(** src/algebra/linear/vector/add/native.rs:72-75, src/algebra/linear/vector/sub/native.rs:46-49 scalar forms. *)
Definition vadd_scalar (v : vector T) (c : T) : vector T := madd_scalar v c.
(** src/algebra/linear/vector/sub/native.rs:46-49 (continued). *)
Definition vsub_scalar (v : vector T) (c : T) : vector T := msub_scalar v c.
(** src/algebra/linear/vector/mul/native.rs:65-68, 87-90 and src/algebra/linear/vector/div/native.rs:24-27, 47-50. *)
Definition vmul_scalar (v : vector T) (c : T) : vector T := mmul_scalar v c.
(** src/algebra/linear/vector/div/native.rs:24-27, 47-50 (continued). *)
Definition vdiv_scalar (v : vector T) (c : T) : vector T := mdiv_scalar v c.

(** src/algebra/linear/vector/mul/native.rs:23-46 [&v * &A]; note that only the column count of [v] is checked and
    [v.get(k)] is used. *)
Definition vmul_mat (v : vector T) (A : matrix T) : outcome (vector T) :=
  let! _ := rassert (cols v =? rows A)%nat in
  let! res := for_loop 0%nat (cols A) (fun i res =>
                let! s := for_loop 0%nat (rows A) (fun k s =>
                            let! x := vvget v k in
                            let! a := mget A k i in
                            Ret (s + x * a)) 0 in
                Ret (res ++ [s])) [] in
  vnew_row (cols A) res.

(** src/algebra/linear/matrix/mul/native.rs:12-35 [&A * &v]; only the row count of [v] is checked. *)
Definition mmul_vec (A : matrix T) (v : vector T) : outcome (vector T) :=
  let! _ := rassert (cols A =? rows v)%nat in
  let! res := for_loop 0%nat (rows A) (fun i res =>
                let! s := for_loop 0%nat (cols A) (fun k s =>
                            let! a := vget (data A) (k * rows A + i)%nat in
                            let! x := vvget v k in
                            Ret (s + a * x)) 0 in
                Ret (res ++ [s])) [] in
  vnew_column (rows A) res.

(** src/algebra/linear/vector/vector.rs:306-319 [dotp]. *)
Definition vdotp (v w : vector T) : outcome T :=
  let! _ := rassert (negb (rows v =? 0)%nat) in
  let! _ := rassert (cols v =? 1)%nat in
  let! _ := rassert (rows v =? rows w)%nat in
  let! _ := rassert (cols v =? cols w)%nat in
  let! t := vtranspose v in
  let! r := mmul t w in
  mget r 0%nat 0%nat.

(** src/algebra/linear/vector/vector.rs:411-425 [dyadp]; only the row counts are used. *)
Definition vdyadp (v w : vector T) : outcome (matrix T) :=
  for_loop 0%nat (rows v) (fun i c =>
    for_loop 0%nat (rows w) (fun j c =>
      let! x := vvget v i in
      let! y := vvget w j in
      mset c i j (x * y)) c) (mzero (rows v) (rows w)).

(** src/algebra/linear/vector/vector.rs:334-356 [argmax]. *)
Definition vargmax (v : vector T) : outcome nat :=
  let! m0 := vvget v 0%nat in
  let limit := Nat.max (rows v) (cols v) in
  let! _ := rassert (negb (limit =? 0)%nat) in
  let! st := for_loop 0%nat limit (fun idx st =>
               let! e := vvget v idx in
               if ltb (snd st) e then Ret (idx, e) else Ret st) (0%nat, m0) in
  Ret (fst st).

(** src/algebra/linear/vector/vector.rs:371-393 [argmin]. *)
Definition vargmin (v : vector T) : outcome nat :=
  let! m0 := vvget v 0%nat in
  let limit := Nat.max (rows v) (cols v) in
  let! _ := rassert (negb (limit =? 0)%nat) in
  let! st := for_loop 0%nat limit (fun idx st =>
               let! e := vvget v idx in
               if ltb e (snd st) then Ret (idx, e) else Ret st) (0%nat, m0) in
  Ret (fst st).

(** src/algebra/linear/vector/vector.rs:622-644 [get_slice]; the result is always a column. *)
Definition vget_slice (v : vector T) (s e : nat) : outcome (vector T) :=
  let! _ := (if (rows v =? 1)%nat
             then let! _ := rassert (s <? cols v)%nat in rassert (e <? cols v)%nat
             else let! _ := rassert (s <? rows v)%nat in rassert (e <? rows v)%nat) in
  let! d := usub e s in
  for_loop s (e + 1)%nat (fun r sl =>
    let! x := vvget v r in
    let! k := usub r s in
    vvset sl k x) (vzero (d + 1)%nat).

(** src/algebra/linear/vector/vector.rs:667-677 [set_slice]; only the row counts are used. *)
Definition vset_slice (v w : vector T) (s : nat) : outcome (vector T) :=
  let! _ := rassert (s + rows w <=? rows v)%nat in
  for_loop s (s + rows w)%nat (fun r v =>
    let! k := usub r s in
    let! x := vvget w k in
    vvset v r x) v.

(** src/algebra/linear/matrix/matrix.rs:275-287 [get_column]. *)
Definition mget_column (A : matrix T) (i : nat) : outcome (vector T) :=
  let! _ := rassert (i <? cols A)%nat in
  for_loop 0%nat (rows A) (fun k v =>
    let! x := mget A k i in vvset v k x) (vzero (rows A)).

(** src/algebra/linear/matrix/matrix.rs:292-305 [get_row]: a zero column is transposed and then filled. *)
Definition mget_row (A : matrix T) (i : nat) : outcome (vector T) :=
  let! _ := rassert (i <? rows A)%nat in
  let! v := vtranspose (vzero (cols A)) in
  for_loop 0%nat (cols A) (fun k v =>
    let! x := mget A i k in vvset v k x) v.

(** src/algebra/linear/matrix/matrix.rs:308-320 [set_column]. *)
Definition mset_column (A : matrix T) (column : vector T) (i : nat) : outcome (matrix T) :=
  let! _ := rassert (rows column =? rows A)%nat in
  for_loop 0%nat (rows A) (fun k A =>
    let! x := vvget column k in mset A k i x) A.

(** src/algebra/linear/matrix/matrix.rs:329-341 [set_row]. *)
Definition mset_row (A : matrix T) (row : vector T) (i : nat) : outcome (matrix T) :=
  let! _ := rassert (cols row =? cols A)%nat in
  for_loop 0%nat (cols A) (fun k A =>
    let! x := vvget row k in mset A i k x) A.

(** src/algebra/linear/matrix/matrix.rs:112-115, src/algebra/linear/matrix/matrixrowintoiterator.rs:4-36: iterator state = (matrix, next row). *)
Definition row_iter_next (A : matrix T) (row : nat) : outcome (option (vector T) * nat) :=
  if (row <? rows A)%nat
  then let! r := mget_row A row in Ret (Some r, S row)
  else Ret (None, row).

(** src/algebra/linear/matrix/matrix.rs:128-131, src/algebra/linear/matrix/matrixcolumnintoiterator.rs:4-36. *)
Definition column_iter_next (A : matrix T) (col : nat) : outcome (option (vector T) * nat) :=
  if (col <? cols A)%nat
  then let! r := mget_column A col in Ret (Some r, S col)
  else Ret (None, col).

End Model.

(** A client calling [next] [k] times in a row on an iterator in state [s]; the list of the
    results (specification device for the iterators, src/algebra/linear/matrix/
    src/algebra/linear/matrix/matrixrowintoiterator.rs:20-36). *)
Fixpoint next_calls {S I : Type} (next : S -> outcome (option I * S)) (k : nat) (s : S)
  : outcome (list (option I)) :=
  match k with
  | O => Ret []
  | S k' =>
      let! r := next s in
      let! rest := next_calls next k' (snd r) in
      Ret (fst r :: rest)
  end.

(** src/algebra/linear/matrix/matrix.rs:102-105 [iter], src/algebra/linear/matrix/matrixiterator.rs:4-26: iteration over the storage slice. *)
Definition miter {T} (A : matrix T) : list T := data A.
