(** Model of the eigenvalue and singular value code: src/algebra/linear/matrix/eigen/native.rs and
    src/algebra/linear/matrix/matrix.rs:482-690 below src/algebra/linear/.  Definitions only. *)
From Coq Require Import Arith List Bool.
From Verif Require Import Outcome Scalar Matrix_model Transpose_model Vector_model LU_model Decomp_model.
Import ListNotations.
Local Open Scope nat_scope.

Section Model.
Context {T : Type} {O : Ops T} {P : POps T}.
Local Open Scope sc_scope.

(** ** Eigenvalues (src/algebra/linear/matrix/eigen/native.rs) *)

(** src/algebra/linear/matrix/eigen/native.rs:85-115: one step of the bulge chase on (self, u, x, y, z). *)
Definition francis_bulge (n p k : nat) (st : matrix T * matrix T * T * T * T)
  : outcome (matrix T * matrix T * T * T * T) :=
  let '(a, u, x, y, z) := st in
  let! b := vnew_column 3 [x; y; z] in
  let! h := mhouseholder b 0%nat in
  let! r1 := usub (Nat.max k 1) 1%nat in
  let! n1 := usub n 1%nat in
  let! sl := mget_slice a k (k + 2)%nat r1 n1 in
  let! temp := mmul h sl in
  let! a := mset_slice a temp k r1 in
  let! ht := mtranspose h in
  let! q1 := usub (Nat.min p (k + 4)) 1%nat in
  let! sl := mget_slice a 0%nat q1 k (k + 2)%nat in
  let! temp := mmul sl ht in
  let! a := mset_slice a temp 0%nat k in
  let! sl := mget_slice u 0%nat n1 k (k + 2)%nat in
  let! temp1 := mmul sl ht in
  let! u := mset_slice u temp1 0%nat k in
  let! x := mget a (k + 1)%nat k in
  let! y := mget a (k + 2)%nat k in
  let! p3 := usub p 3%nat in
  if (k <? p3)%nat then let! z := mget a (k + 3)%nat k in Ret (a, u, x, y, z)
  else Ret (a, u, x, y, z).

(** src/algebra/linear/matrix/eigen/native.rs:117-133: the closing Givens rotation ([q] is [p - 1]).  Line 131 reads the
    rows of [self], not of [u]. *)
Definition francis_givens (n p : nat) (a u : matrix T) (x y : T) : outcome (matrix T * matrix T) :=
  let q := (p - 1)%nat in
  let '(c, s) := givens_pair x y in
  let! g := mgivens 2 0%nat 1%nat c s in
  let! sl := mget_slice a (q - 1)%nat (p - 1)%nat (p - 3)%nat (n - 1)%nat in
  let! temp := mmul g sl in
  let! a := mset_slice a temp (q - 1)%nat (p - 3)%nat in
  let! gt := mtranspose g in
  let! sl := mget_slice a 0%nat (p - 1)%nat (p - 2)%nat (p - 1)%nat in
  let! temp := mmul sl gt in
  let! a := mset_slice a temp 0%nat (p - 2)%nat in
  let! sl := mget_slice a 0%nat (n - 1)%nat (p - 2)%nat (p - 1)%nat in
  let! us := mmul sl gt in
  let! u := mset_slice u us 0%nat (p - 2)%nat in
  Ret (a, u).

(** src/algebra/linear/matrix/eigen/native.rs:135-153: the convergence test; returns the matrix and the next [p].  The last
    line decrements [p] in every case. *)
Definition francis_deflate (eps : T) (p : nat) (a : matrix T) : outcome (matrix T * nat) :=
  let q := (p - 1)%nat in
  let! mq := mget a (q - 1)%nat (q - 1)%nat in
  let! mp := mget a (p - 1)%nat (p - 1)%nat in
  let! o := mget a (p - 1)%nat (q - 1)%nat in
  if ltb (tabs o) (eps * (tabs mq + tabs mp)) then
    let! a := mset a (p - 1)%nat (q - 1)%nat 0 in
    let! p := usub p 1%nat in
    let! p := usub p 1%nat in Ret (a, p)
  else
    let! k := mget a (q - 2)%nat (q - 2)%nat in
    let! l := mget a (q - 1)%nat (q - 1)%nat in
    let! o := mget a (p - 2)%nat (q - 2)%nat in
    if ltb (tabs o) (eps * (tabs k + tabs l)) then
      let! a := mset a (p - 2)%nat (q - 2)%nat 0 in
      let! p := usub p 2%nat in
      let! p := usub p 1%nat in Ret (a, p)
    else let! p := usub p 1%nat in Ret (a, p).

(** src/algebra/linear/matrix/eigen/native.rs:68-154: the body of the loop. *)
Definition francis_step (eps : T) (n p : nat) (a u : matrix T) : outcome (matrix T * matrix T * nat) :=
  let q := (p - 1)%nat in
  let! aqq := mget a (q - 1)%nat (q - 1)%nat in
  let! app := mget a (p - 1)%nat (p - 1)%nat in
  let! aqp := mget a (q - 1)%nat (p - 1)%nat in
  let! apq := mget a (p - 1)%nat (q - 1)%nat in
  let s := aqq + app in
  let t := aqq * app - aqp * apq in
  let! a00 := mget a 0%nat 0%nat in
  let! a01 := mget a 0%nat 1%nat in
  let! a10 := mget a 1%nat 0%nat in
  let! a11 := mget a 1%nat 1%nat in
  let! a21 := mget a 2%nat 1%nat in
  let x := tpow a00 two + a01 * a10 - s * a00 + t in
  let y := a10 * (a00 + a11 - s) in
  let z := a10 * a21 in
  let! st := for_loop 0%nat (p - 2)%nat (francis_bulge n p) (a, u, x, y, z) in
  let '(a, u, x, y, z) := st in
  let! au := francis_givens n p a u x y in
  let! ap := francis_deflate eps p (fst au) in
  Ret (fst ap, snd au, snd ap).

(** src/algebra/linear/matrix/eigen/native.rs:57-157 [francis]: [while p > 2]; [None] when the fuel is used up (it never is
    with fuel [n], see [francis_fuel]). [eps] is [T::epsilon()]. *)
Fixpoint francis_loop (eps : T) (n : nat) (fuel p : nat) (a u : matrix T)
  : outcome (option (matrix T * matrix T)) :=
  if (2 <? p)%nat then
    match fuel with
    | 0%nat => Ret None
    | S f =>
        let! st := francis_step eps n p a u in
        let '(a, u, p) := st in
        francis_loop eps n f p a u
    end
  else Ret (Some (u, a)).
(** src/algebra/linear/matrix/eigen/native.rs:57-157 [francis]; the result is the pair (u, t). *)
Definition mfrancis (eps : T) (a : matrix T) : outcome (matrix T * matrix T) :=
  let! u := mone (rows a) in
  let! r := francis_loop eps (cols a) (cols a) (cols a) a u in
  match r with Some ut => Ret ut | None => Panic end.

(** src/algebra/linear/matrix/eigen/native.rs:39-55 [eigenvalue_r]. *)
Definition eigenvalue_r (eps : T) (A : matrix T) : outcome (vector T) :=
  let! qh := dec_hessenberg A in
  let! ut := mfrancis eps (snd qh) in
  for_loop 0%nat (rows A) (fun i eig =>
    let! x := mget (snd ut) i i in vvset eig i x) (vzero (rows A)).

(** src/algebra/linear/matrix/eigen/native.rs:159-173 [eigenvector_r]; [value.iter()] runs over the storage. *)
Definition eigenvector_r (A : matrix T) (value : vector T) : outcome (matrix T) :=
  let! eye := mone (rows A) in
  for_loop 0%nat (length (data value)) (fun c vectors =>
    let! val := vget (data value) c in
    let! diff := msub A (mmul_scalar eye val) in
    let! r := solve_vec diff (vzero (rows A)) in
    let! vec := runwrap r in
    mset_column vectors vec c) (mzero (rows A) (rows A)).

(** src/algebra/linear/matrix/eigen/native.rs:27-37 [dec_eigen]; [EigenDec] (src/algebra/linear/matrix/eigen/eigendec.rs) is the pair. *)
Definition dec_eigen (eps : T) (A : matrix T) : outcome (vector T * matrix T) :=
  let! _ := rassert (rows A =? cols A)%nat in
  let! _ := rassert (negb (rows A =? 0)%nat) in
  let! value := eigenvalue_r eps A in
  let! vector := eigenvector_r A value in
  Ret (value, vector).

(** ** Singular values (src/algebra/linear/matrix/matrix.rs) *)

(** src/algebra/linear/matrix/matrix.rs:595-620 [rot]. *)
Definition mrot (f g : T) : T * T * T :=
  if eqb f 0 then (0, 1, g)
  else if ltb (tabs g) (tabs f)
  then let t := g / f in
       let t1 := tpow (1 + tpow t two) half in
       (1 / t1, t / t1, f * t1)
  else let t := f / g in
       let t1 := tpow (1 + tpow t two) half in
       (t / t1, 1 / t1, g * t1).

(** src/algebra/linear/matrix/matrix.rs:640-676: one column of the bidiagonalisation on (u, a_i, v); the test [i < n - 1]
    (660) always holds inside the loop. *)
Definition bidiag_step (m n i : nat) (st : matrix T * matrix T * matrix T)
  : outcome (matrix T * matrix T * matrix T) :=
  let '(u, a, v) := st in
  let! u_x := mget_column a i in
  let! u_slice := vget_slice u_x i (m - 1)%nat in
  let! u_i := mhouseholder u_slice 0%nat in
  let! sl := mget_slice a i (m - 1)%nat i (n - 1)%nat in
  let! a_slice := mmul u_i sl in
  let! a := mset_slice a a_slice i i in
  let! u_mi := mone m in
  let! u_mi := mset_slice u_mi u_i i i in
  let! u := mmul u u_mi in
  if (i <? n - 1)%nat then
    let! v_x := mget_row a i in
    let! v_t := vtranspose v_x in
    let! v_slice := vget_slice v_t (i + 1)%nat (n - 1)%nat in
    let! v_i := mhouseholder v_slice 0%nat in
    let! v_ni := mone n in
    let! v_ni := mset_slice v_ni v_i (i + 1)%nat (i + 1)%nat in
    let! a := mmul a v_ni in
    let! v := mmul v v_ni in
    Ret (u, a, v)
  else Ret (u, a, v).
(** src/algebra/linear/matrix/matrix.rs:678-688: everything off the diagonal and the superdiagonal is overwritten with zero. *)
Definition bidiag_clean (m n : nat) (a : matrix T) : outcome (matrix T) :=
  for_loop 0%nat m (fun i a =>
    for_loop 0%nat n (fun k a =>
      if negb (k =? i)%nat && negb (k =? i + 1)%nat then mset a i k 0 else Ret a) a) a.
(** src/algebra/linear/matrix/matrix.rs:628-690 [householder_bidiag]; the result is (u, b, v). *)
Definition householder_bidiag (A : matrix T) : outcome (matrix T * matrix T * matrix T) :=
  let m := rows A in
  let n := cols A in
  let! _ := rassert (negb (m <? n)%nat) in
  let! u := mone m in
  let! v := mone n in
  let! n1 := usub n 1%nat in
  let! st := for_loop 0%nat n1 (bidiag_step m n) (u, A, v) in
  let '(u, a, v) := st in
  let! a := bidiag_clean m n a in
  Ret (u, a, v).

(** src/algebra/linear/matrix/matrix.rs:559-590: the rotations of index [k]. *)
Definition msweep_step (n k : nat) (st : matrix T * matrix T * matrix T)
  : outcome (matrix T * matrix T * matrix T) :=
  let '(u, b, v) := st in
  let! q := mone n in
  let! bkk := mget b k k in
  let! bkk1 := mget b k (k + 1)%nat in
  let '(c_r, s_r, _) := mrot bkk bkk1 in
  let! q := mset q k k c_r in
  let! q := mset q k (k + 1)%nat s_r in
  let! q := mset q (k + 1)%nat k (- s_r) in
  let! q := mset q (k + 1)%nat (k + 1)%nat c_r in
  let! q_t := mtranspose q in
  let! b := mmul b q_t in
  let! v := mmul v q_t in
  let! bkk := mget b k k in
  let! bk1k := mget b (k + 1)%nat k in
  let '(c_l, s_l, _) := mrot bkk bk1k in
  let! q := mset q k k c_l in
  let! q := mset q k (k + 1)%nat s_l in
  let! q := mset q (k + 1)%nat k (- s_l) in
  let! q := mset q (k + 1)%nat (k + 1)%nat c_l in
  let! b := mmul q b in
  let! u := mmul q u in
  Ret (u, b, v).
(** src/algebra/linear/matrix/matrix.rs:552-593 [msweep]. *)
Definition msweep (st : matrix T * matrix T * matrix T) : outcome (matrix T * matrix T * matrix T) :=
  let n := cols (snd (fst st)) in
  let! n1 := usub n 1%nat in
  for_loop 0%nat n1 (msweep_step n) st.

(** src/algebra/linear/matrix/matrix.rs:524-534: singular values made non-negative, on (u, b). *)
Definition sv_signs (u b : matrix T) : outcome (matrix T * matrix T) :=
  for_loop 0%nat (rows b) (fun l ub =>
    let '(u, b) := ub in
    let! x := mget b l l in
    if ltb x 0 then
      let! b := mset b l l (- x) in
      let! col := mget_column u l in
      let! u := mset_column u (vmul_scalar col (neg one)) l in
      Ret (u, b)
    else Ret (u, b)) (u, b).
(** src/algebra/linear/matrix/matrix.rs:536-546: off-diagonal elements overwritten with zero. *)
Definition sv_clean (b : matrix T) : outcome (matrix T) :=
  for_loop 0%nat (rows b) (fun l b =>
    for_loop 0%nat (rows b) (fun k b =>
      if negb (k =? l)%nat then mset b k l 0 else Ret b) b) b.
(** src/algebra/linear/matrix/matrix.rs:503-550 [dec_sv]; the result is (u, s, v). *)
Definition dec_sv (A : matrix T) : outcome (matrix T * matrix T * matrix T) :=
  let! ubv := householder_bidiag A in
  let '(u, b, v) := ubv in
  let n := cols b in
  let! u_k := mone n in
  let! st := for_loop 0%nat (500 * n * n)%nat (fun _ st => msweep st) (u_k, b, v) in
  let '(u_k, b, v) := st in
  let! u_kt := mtranspose u_k in
  let! u := mmul u u_kt in
  let! ub := sv_signs u b in
  let '(u, b) := ub in
  let! b := sv_clean b in
  Ret (u, b, v).

End Model.
