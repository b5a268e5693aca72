(** Model of the LU decomposition and what is built on it: src/algebra/linear/matrix/lu/native.rs, src/algebra/linear/matrix/lu/ludec.rs,
    src/algebra/linear/matrix/substitute/native.rs, src/algebra/linear/matrix/solve/native.rs, src/algebra/linear/matrix/inverse/native.rs (all below
    src/algebra/linear/matrix/) and [det] in src/algebra/linear/matrix/matrix.rs.  Definitions only. *)
From Coq Require Import Arith List Bool.
From Verif Require Import Outcome Scalar Matrix_model Transpose_model Vector_model.
Import ListNotations.
Local Open Scope nat_scope.

(** Rust [Result<A, ()>]. *)
Inductive result (A : Type) : Type := Ok (a : A) | Err.
Arguments Ok {A} a.
Arguments Err {A}.

(** The [?] operator: an early return of [Err]. *)
Definition rtry {A B} (r : result A) (k : A -> outcome (result B)) : outcome (result B) :=
  match r with Ok a => k a | Err => Ret Err end.
(** [Result::unwrap]. *)
Definition runwrap {A} (r : result A) : outcome A := match r with Ok a => Ret a | Err => Panic end.

(** src/algebra/linear/matrix/lu/ludec.rs:14-19 [struct LUDec]; [l()], [u()], [p()], [lup()] (29-48) are the projections. *)
Record ludec (T : Type) := mkLU { lu_l : matrix T; lu_u : matrix T; lu_p : matrix T }.
Arguments mkLU {T}. Arguments lu_l {T}. Arguments lu_u {T}. Arguments lu_p {T}.

Section Model.
Context {T : Type} {O : Ops T}.
Local Open Scope sc_scope.

(** src/algebra/linear/matrix/lu/native.rs:37-48: search of the pivot row, by value (not magnitude). *)
Definition lu_pivot (a : matrix T) (i : nat) : outcome nat :=
  let! a_ii := mget a i i in
  let! st := for_loop (i + 1)%nat (rows a) (fun l st =>
               let! x := mget a l i in
               if ltb (fst st) x then Ret (x, l) else Ret st) (a_ii, i) in
  Ret (snd st).

(** src/algebra/linear/matrix/lu/native.rs:56-73: elimination below the pivot; the multipliers are stored in place. *)
Definition lu_elim (a : matrix T) (i : nat) : outcome (matrix T) :=
  for_loop (i + 1)%nat (cols a) (fun j a =>
    let! a_ii := mget a i i in
    let! f := (if negb (eqb a_ii 0)
               then let! x := mget a j i in let! y := mget a i i in Ret (x / y)
               else mget a j i) in
    let! a := for_loop (i + 1)%nat (cols a) (fun k a =>
                let! x := mget a j k in
                let! y := mget a i k in
                mset a j k (x - f * y)) a in
    mset a j i f) a.

(** src/algebra/linear/matrix/lu/native.rs:35-74: one pass of the outer loop over the pair (a, p). *)
Definition lu_step (i : nat) (st : matrix T * matrix T) : outcome (matrix T * matrix T) :=
  let a := fst st in
  let p := snd st in
  let! i_max := lu_pivot a i in
  let! st := (if negb (i =? i_max)%nat
              then let! a := mswap_rows a i i_max in
                   let! p := mswap_rows p i i_max in
                   Ret (a, p)
              else Ret (a, p)) in
  let! a := lu_elim (fst st) i in
  Ret (a, snd st).

(** src/algebra/linear/matrix/lu/native.rs:24-93 [dec_lu]. *)
Definition dec_lu (A : matrix T) : outcome (result (ludec T)) :=
  let! _ := rassert (rows A =? cols A)%nat in
  let! l := mone (rows A) in
  let! u := mone (cols A) in
  let! p := mone (rows A) in
  let! st := for_loop 0%nat (rows A) lu_step (A, p) in
  let a := fst st in
  let p := snd st in
  let! l := for_loop 1%nat (cols a) (fun i l =>
              for_loop 0%nat i (fun j l =>
                let! x := vget (data a) (j * rows a + i)%nat in
                let! d := vset (data l) (j * rows a + i)%nat x in
                Ret (mkMatrix (rows l) (cols l) d)) l) l in
  let! u := for_loop 0%nat (cols a) (fun i u =>
              for_loop i (cols a) (fun k u =>
                let! x := vget (data a) (k * rows a + i)%nat in
                let! d := vset (data u) (k * rows a + i)%nat x in
                Ret (mkMatrix (rows u) (cols u) d)) u) u in
  Ret (Ok (mkLU l u p)).

(** src/algebra/linear/matrix/substitute/native.rs:7-20 [Substitute<Vector>::substitute_forward]. *)
Definition subst_forward_vec (L : matrix T) (b : vector T) : outcome (vector T) :=
  for_loop 0%nat (cols L) (fun k b =>
    let! b := for_loop 0%nat k (fun l b =>
                let! x := vvget b k in
                let! y := mget L k l in
                let! z := vvget b l in
                vvset b k (x - y * z)) b in
    let! x := vvget b k in
    let! d := mget L k k in
    vvset b k (x / d)) b.

(** src/algebra/linear/matrix/substitute/native.rs:22-43 [Substitute<Vector>::substitute_backward]. *)
Definition subst_backward_vec (U : matrix T) (b : vector T) : outcome (vector T) :=
  for_loop_rev 0%nat (cols U) (fun k b =>
    let! b := for_loop_rev (k + 1)%nat (cols U) (fun l b =>
                let! x := vvget b k in
                let! y := mget U k l in
                let! z := vvget b l in
                vvset b k (x - y * z)) b in
    let! d := mget U k k in
    if negb (eqb d 0)
    then let! x := vvget b k in
         let! d := mget U k k in
         vvset b k (x / d)
    else vvset b k 1) b.

(** One row update [b.set_row(&(b.get_row(k) - b.get_row(l) * c), k)] of
    src/algebra/linear/matrix/substitute/native.rs:56 and 72. *)
Definition row_axpy (b : matrix T) (k l : nat) (c : T) : outcome (matrix T) :=
  let! rk := mget_row b k in
  let! rl := mget_row b l in
  let! r := vsub rk (vmul_scalar rl c) in
  mset_row b r k.

(** [b.set_row(&(b.get_row(k) / d), k)] of src/algebra/linear/matrix/substitute/native.rs:58 and 74. *)
Definition row_div (b : matrix T) (k : nat) (d : T) : outcome (matrix T) :=
  let! rk := mget_row b k in
  mset_row b (vdiv_scalar rk d) k.

(** src/algebra/linear/matrix/substitute/native.rs:48-61 [Substitute<Matrix>::substitute_forward]. *)
Definition subst_forward_mat (L : matrix T) (b : matrix T) : outcome (matrix T) :=
  let min := Nat.min (rows L) (cols L) in
  for_loop 0%nat min (fun k b =>
    let! b := for_loop 0%nat k (fun l b => let! y := mget L k l in row_axpy b k l y) b in
    let! d := mget L k k in
    row_div b k d) b.

(** src/algebra/linear/matrix/substitute/native.rs:63-78 [Substitute<Matrix>::substitute_backward]. *)
Definition subst_backward_mat (U : matrix T) (b : matrix T) : outcome (matrix T) :=
  let min := Nat.min (rows U) (cols U) in
  for_loop_rev 0%nat min (fun k b =>
    let! b := for_loop_rev (k + 1)%nat min (fun l b => let! y := mget U k l in row_axpy b k l y) b in
    let! d := mget U k k in
    row_div b k d) b.

(** src/algebra/linear/matrix/lu/ludec.rs:55-64 [Solve<Vector> for LUDec]. *)
Definition lu_solve_vec (d : ludec T) (rhs : vector T) : outcome (result (vector T)) :=
  let! b_hat := mmul_vec (lu_p d) rhs in
  let! y := subst_forward_vec (lu_l d) b_hat in
  let! x := subst_backward_vec (lu_u d) y in
  Ret (Ok x).

(** src/algebra/linear/matrix/lu/ludec.rs:96-104 [Solve<Matrix> for LUDec]. *)
Definition lu_solve_mat (d : ludec T) (rhs : matrix T) : outcome (result (matrix T)) :=
  let! b_hat := mmul (lu_p d) rhs in
  let! y := subst_forward_mat (lu_l d) b_hat in
  let! x := subst_backward_mat (lu_u d) y in
  Ret (Ok x).

(** src/algebra/linear/matrix/lu/ludec.rs:85-90 [Inverse for LUDec]. *)
Definition lu_inv (d : ludec T) : outcome (result (matrix T)) :=
  let! b := mone (rows (lu_p d)) in
  let! x := lu_solve_mat d b in
  rtry x (fun x => Ret (Ok x)).

(** src/algebra/linear/matrix/solve/native.rs:12-23 [Solve<Vector> for Matrix]. *)
Definition solve_vec (A : matrix T) (rhs : vector T) : outcome (result (vector T)) :=
  let! r := dec_lu A in
  let! d := runwrap r in
  let! b_hat := mmul_vec (lu_p d) rhs in
  let! y := subst_forward_vec (lu_l d) b_hat in
  let! x := subst_backward_vec (lu_u d) y in
  Ret (Ok x).

(** src/algebra/linear/matrix/solve/native.rs:28-31 [Solve<Matrix> for Matrix]. *)
Definition solve_mat (A B : matrix T) : outcome (result (matrix T)) :=
  let! r := dec_lu A in
  rtry r (fun d => lu_solve_mat d B).

(** src/algebra/linear/matrix/inverse/native.rs:20-32 [inv], [inv_r]. *)
Definition minv (A : matrix T) : outcome (result (matrix T)) :=
  let! r := dec_lu A in
  rtry r (fun d => lu_inv d).

(** src/algebra/linear/matrix/matrix.rs:171-218 [det].  [pow_int b k] stands for [b.pow(T::from_u128(k))], the only use of
    [Power] in this function; it is a parameter because [pow] on scalars is an external
    (libm) function. *)
Definition mdet (pow_int : T -> nat -> T) (A : matrix T) : outcome T :=
  let! _ := rassert (rows A =? cols A)%nat in
  if (rows A =? 1)%nat then mget A 0%nat 0%nat
  else if (rows A =? 2)%nat then
    let! a11 := mget A 0%nat 0%nat in
    let! a12 := mget A 0%nat 1%nat in
    let! a21 := mget A 1%nat 0%nat in
    let! a22 := mget A 1%nat 1%nat in
    Ret (a11 * a22 - a12 * a21)
  else
    let! r := dec_lu A in
    match r with
    | Err => Ret 0
    | Ok d =>
      let! det := for_loop 0%nat (rows A) (fun i det =>
                    let! x := mget (lu_u d) i i in Ret (det * x)) 1 in
      let! counter := for_loop 0%nat (rows A) (fun i c =>
                        let! x := mget (lu_p d) i i in
                        if negb (eqb x one) then Ret (c + 1)%nat else Ret c) 0%nat in
      let! perm := (if negb (counter =? 0)%nat
                    then let! k := usub counter 1%nat in Ret (pow_int (neg one) k)
                    else Ret 1) in
      Ret (perm * det)
    end.

End Model.
