(** Model of the in-place transposition: src/algebra/linear/matrix/transpose/native.rs.
    Definitions only. *)
From Coq Require Import Arith List Bool.
From Verif Require Import Outcome Scalar Matrix_model.
Import ListNotations.
Local Open Scope nat_scope.

(** src/algebra/linear/matrix/transpose/native.rs:11-20 [gcd]: [while m != 0 { (m, n) = (n % m, m) }].  The fuel [S m]
    suffices because [m] decreases strictly ([gcd_fuel] in Transpose_proofs). *)
Fixpoint gcd_loop (fuel m n : nat) : option nat :=
  match fuel with
  | O => None
  | S fuel' => if m =? 0 then Some n else gcd_loop fuel' (n mod m) m
  end.
(** src/algebra/linear/matrix/transpose/native.rs:11-20 (continued). *)
Definition rgcd (m n : nat) : outcome nat :=
  match gcd_loop (S m) m n with Some g => Ret g | None => Panic end.

(** src/algebra/linear/matrix/transpose/native.rs:22-25 [gather]. *)
Definition gather (m i j b : nat) : outcome nat :=
  let! q := udiv j b in umod (i + q) m.

(** src/algebra/linear/matrix/transpose/native.rs:27-30 [gather_sa]. *)
Definition gather_sa (m n i j a : nat) : outcome nat :=
  let! q := udiv i a in
  let! d := usub (j + i * n) q in
  umod d m.

(** src/algebra/linear/matrix/transpose/native.rs:32-35 [scatter_da]. *)
Definition scatter_da (m n i j b : nat) : outcome nat :=
  let! q := udiv j b in
  let! r := umod (i + q) m in
  umod (r + j * m) n.

(** The scratch vector [temp] is allocated uninitialised (src/algebra/linear/matrix/transpose/native.rs:73-75,
    [set_len] on fresh capacity).  A cell is [None] until written; reading an uninitialised cell
    is modelled as [Panic] so that a proof of a normal return shows it never happens. *)
Definition tread {T} (temp : list (option T)) (k : nat) : outcome T :=
  let! c := vget temp k in
  match c with Some x => Ret x | None => Panic end.
(** src/algebra/linear/matrix/transpose/native.rs:73-75 (continued). *)
Definition twrite {T} (temp : list (option T)) (k : nat) (v : T) : outcome (list (option T)) :=
  vset temp k (Some v).

Section Model.
Context {T : Type}.
Implicit Types (A : matrix T) (temp : list (option T)).

(** src/algebra/linear/matrix/transpose/native.rs:86-89 and 113-116: [for i in 0..m { self(i,j) = temp[i] }]. *)
Definition copy_column A temp (j : nat) : outcome (matrix T) :=
  for_loop 0 (rows A) (fun i A => let! x := tread temp i in mset A i j x) A.

(** src/algebra/linear/matrix/transpose/native.rs:100-103: [for j in 0..n { self(i,j) = temp[j] }]. *)
Definition copy_row A temp (i : nat) : outcome (matrix T) :=
  for_loop 0 (cols A) (fun j A => let! x := tread temp j in mset A i j x) A.

(** src/algebra/linear/matrix/transpose/native.rs:77-91: first pass, only if [gcdiv > 1]. *)
Definition pass1 (b : nat) (st : matrix T * list (option T))
  : outcome (matrix T * list (option T)) :=
  for_loop 0 (cols (fst st)) (fun j st =>
    let! temp := for_loop 0 (rows (fst st)) (fun i temp =>
                   let! g := gather (rows (fst st)) i j b in
                   let! x := mget (fst st) g j in
                   twrite temp i x) (snd st) in
    let! A := copy_column (fst st) temp j in
    Ret (A, temp)) st.

(** src/algebra/linear/matrix/transpose/native.rs:93-104: second pass. *)
Definition pass2 (b : nat) (st : matrix T * list (option T))
  : outcome (matrix T * list (option T)) :=
  for_loop 0 (rows (fst st)) (fun i st =>
    let! temp := for_loop 0 (cols (fst st)) (fun j temp =>
                   let! d := scatter_da (rows (fst st)) (cols (fst st)) i j b in
                   let! x := mget (fst st) i j in
                   twrite temp d x) (snd st) in
    let! A := copy_row (fst st) temp i in
    Ret (A, temp)) st.

(** src/algebra/linear/matrix/transpose/native.rs:106-117: third pass. *)
Definition pass3 (a : nat) (st : matrix T * list (option T))
  : outcome (matrix T * list (option T)) :=
  for_loop 0 (cols (fst st)) (fun j st =>
    let! temp := for_loop 0 (rows (fst st)) (fun i temp =>
                   let! s := gather_sa (rows (fst st)) (cols (fst st)) i j a in
                   let! x := mget (fst st) s j in
                   twrite temp i x) (snd st) in
    let! A := copy_column (fst st) temp j in
    Ret (A, temp)) st.

(** src/algebra/linear/matrix/transpose/native.rs:64-124 [transpose]. *)
Definition mtranspose A : outcome (matrix T) :=
  let! g := rgcd (rows A) (cols A) in
  let! a := udiv (rows A) g in
  let! b := udiv (cols A) g in
  let temp := repeat None (Nat.max (rows A) (cols A)) in
  let! st := (if 1 <? g then pass1 b (A, temp) else Ret (A, temp)) in
  let! st := pass2 b st in
  let! st := pass3 a st in
  Ret (mkMatrix (cols (fst st)) (rows (fst st)) (data (fst st))).

End Model.
