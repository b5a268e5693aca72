(** Model of the dense matrix type: src/algebra/linear/matrix/matrix.rs and the native
    implementations of the operators in add/, sub/, mul/, src/algebra/linear/matrix/div.rs.  Definitions only. *)
From Coq Require Import Arith List Bool.
From Verif Require Import Outcome Scalar.
Import ListNotations.
Local Open Scope nat_scope.

(** src/algebra/linear/matrix/matrix.rs:67-77 [struct Matrix { m, n, data }]. *)
Record matrix (T : Type) := mkMatrix { rows : nat; cols : nat; data : list T }.
Arguments mkMatrix {T} rows cols data.
Arguments rows {T} m.
Arguments cols {T} m.
Arguments data {T} m.

(** src/algebra/linear/matrix/matrix.rs:910-914 [Matrix::new]. *)
Definition mnew {T} (m n : nat) (d : list T) : outcome (matrix T) :=
  let! _ := rassert (m * n =? length d) in Ret (mkMatrix m n d).

(** src/algebra/linear/matrix/matrix.rs:1042-1045 [dim]; 1058 [nrows] and 1075 [ncols] are [rows] and [cols]. *)
Definition dim {T} (A : matrix T) : nat * nat := (rows A, cols A).

(** src/algebra/linear/matrix/matrix.rs:860-866 [get]: two assertions, then [Vec] indexing (itself bounds checked). *)
Definition mget {T} (A : matrix T) (i j : nat) : outcome T :=
  let! _ := rassert (i <? rows A) in
  let! _ := rassert (j <? cols A) in
  vget (data A) (j * rows A + i).

(** src/algebra/linear/matrix/matrix.rs:833-838 [*get_mut(i, j) = v]. *)
Definition mset {T} (A : matrix T) (i j : nat) (v : T) : outcome (matrix T) :=
  let! _ := rassert (i <? rows A) in
  let! _ := rassert (j <? cols A) in
  let! d := vset (data A) (j * rows A + i) v in
  Ret (mkMatrix (rows A) (cols A) d).

(** src/algebra/linear/matrix/matrix.rs:147-156 [apply_mut], [apply]. *)
Definition mapply {T} (f : T -> T) (A : matrix T) : matrix T :=
  mkMatrix (rows A) (cols A) (map f (data A)).

(** src/algebra/linear/matrix/matrix.rs:45-65 macro [matrix!]: the nested array literal [a] given row by row (Rust's
    array typing makes all rows equally long); [a[0]] panics for an empty literal. *)
Definition matrix_macro {T} (a : list (list T)) : outcome (matrix T) :=
  let m := length a in
  let! r0 := vget a 0 in
  let n := length r0 in
  let! d := for_loop 0 n (fun j d =>
              for_loop 0 m (fun i d =>
                let! r := vget a i in
                let! x := vget r j in
                Ret (d ++ [x])) d) [] in
  mnew m n d.

Section Model.
Context {T : Type} {O : Ops T}.
Local Open Scope sc_scope.

(** src/algebra/linear/matrix/matrix.rs:947-952 [zero]. *)
Definition mzero (m n : nat) : matrix T := mkMatrix m n (repeat 0 (m * n)%nat).

(** src/algebra/linear/matrix/matrix.rs:1003-1008 [ones]. *)
Definition mones (m n : nat) : matrix T := mkMatrix m n (repeat 1 (m * n)%nat).

(** src/algebra/linear/matrix/matrix.rs:989-1001 [one]. *)
Definition mone (size : nat) : outcome (matrix T) :=
  let d := repeat 0 (size * size)%nat in
  let! d := for_loop 0%nat size (fun i d => vset d (i * size + i)%nat 1) d in
  Ret (mkMatrix size size d).

(** src/algebra/linear/matrix/matrix.rs:883-896 [PartialEq::eq]; [Vec == Vec] compares lengths and then elements. *)
Fixpoint vec_eqb (a b : list T) : bool :=
  match a, b with
  | [], [] => true
  | x :: a', y :: b' => eqb x y && vec_eqb a' b'
  | _, _ => false
  end.
(** src/algebra/linear/matrix/matrix.rs:883-896 (continued). *)
Definition meqb (A B : matrix T) : bool :=
  if (rows A =? rows B)%nat && (cols A =? cols B)%nat
  then vec_eqb (data A) (data B)
  else false.

(** src/algebra/linear/matrix/add/native.rs:46-57 [&A + &B] (the owned form, 23-26, delegates to it). *)
Definition madd (A B : matrix T) : outcome (matrix T) :=
  let! _ := rassert ((rows A =? rows B)%nat && (cols A =? cols B)%nat) in
  Ret (mkMatrix (rows A) (cols A)
         (map (fun p => fst p + snd p) (combine (data A) (data B)))).

(** src/algebra/linear/matrix/sub/native.rs:41-52 [&A - &B]. *)
Definition msub (A B : matrix T) : outcome (matrix T) :=
  let! _ := rassert ((rows A =? rows B)%nat && (cols A =? cols B)%nat) in
  Ret (mkMatrix (rows B) (cols B)
         (map (fun p => fst p - snd p) (combine (data A) (data B)))).

(** src/algebra/linear/matrix/add/native.rs:76-79, src/algebra/linear/matrix/sub/native.rs:71-74, src/algebra/linear/matrix/mul/native.rs:79-82 and 160-163: scalar forms. *)
Definition madd_scalar (A : matrix T) (c : T) : matrix T := mapply (fun x => x + c) A.
(** src/algebra/linear/matrix/mul/native.rs:79-82 (continued). *)
Definition msub_scalar (A : matrix T) (c : T) : matrix T := mapply (fun x => x - c) A.
(** src/algebra/linear/matrix/mul/native.rs:79-82 (continued). *)
Definition mmul_scalar (A : matrix T) (c : T) : matrix T := mapply (fun x => x * c) A.

(** src/algebra/linear/matrix/div.rs:23-26 and 43-46: division by a scalar multiplies by the reciprocal. *)
Definition mdiv_scalar (A : matrix T) (c : T) : matrix T := mmul_scalar A (1 / c).

(** src/algebra/linear/matrix/mul/native.rs:134-155 [&A * &B]. *)
Definition mmul (A B : matrix T) : outcome (matrix T) :=
  let! _ := rassert (cols A =? rows B)%nat in
  for_loop 0%nat (rows A) (fun i P =>
    for_loop 0%nat (cols B) (fun j P =>
      let! s := for_loop 0%nat (cols A) (fun k s =>
                  let! a := mget A i k in
                  let! b := mget B k j in
                  Ret (s + a * b)) 0 in
      mset P i j s) P) (mzero (rows A) (cols B)).

(** src/algebra/linear/matrix/matrix.rs:261-269 [swap_rows]. *)
Definition mswap_rows (A : matrix T) (i j : nat) : outcome (matrix T) :=
  for_loop 0%nat (cols A) (fun k A =>
    let! temp := mget A i k in
    let! x := mget A j k in
    let! A := mset A i k x in
    mset A j k temp) A.

(** src/algebra/linear/matrix/matrix.rs:239-255 [trace]. *)
Definition mtrace (A : matrix T) : outcome T :=
  let! _ := rassert (rows A =? cols A)%nat in
  for_loop 0%nat (rows A) (fun i s => let! x := mget A i i in Ret (s + x)) 0.

(** src/algebra/linear/matrix/matrix.rs:726-748 [get_slice]; [row_e - row_s + 1] can underflow. *)
Definition mget_slice (A : matrix T) (rs re cs ce : nat) : outcome (matrix T) :=
  let! _ := rassert (rs <? rows A)%nat in
  let! _ := rassert (re <? rows A)%nat in
  let! _ := rassert (cs <? cols A)%nat in
  let! _ := rassert (ce <? cols A)%nat in
  let! dr := usub re rs in
  let! dc := usub ce cs in
  for_loop rs (re + 1)%nat (fun r S =>
    for_loop cs (ce + 1)%nat (fun c S =>
      let! ir := usub r rs in
      let! ic := usub c cs in
      let! x := mget A r c in
      mset S ir ic x) S) (mzero (dr + 1)%nat (dc + 1)%nat).

(** src/algebra/linear/matrix/matrix.rs:778-793 [set_slice]. *)
Definition mset_slice (A S : matrix T) (row column : nat) : outcome (matrix T) :=
  let! _ := rassert (row + rows S <=? rows A)%nat in
  let! _ := rassert (column + cols S <=? cols A)%nat in
  for_loop row (row + rows S)%nat (fun r A =>
    for_loop column (column + cols S)%nat (fun c A =>
      let! ir := usub r row in
      let! ic := usub c column in
      let! x := mget S ir ic in
      mset A r c x) A) A.

End Model.
