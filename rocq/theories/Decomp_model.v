(** Model of norms, Givens and Householder matrices and the Cholesky, QR and Hessenberg
    decompositions: src/algebra/linear/vector/vector.rs, src/algebra/linear/matrix/matrix.rs, matrix/{cholesky,qr,hessenberg}/native.rs
    below src/algebra/linear/.  Definitions only.

    [tsqrt x] stands for [x.sqrt()], [tpow x y] for [x.pow(y)], [two] for [T::from_f64(2.0)] and
    [half] for [T::from_f64(0.5)] (class [POps]). *)
From Coq Require Import Arith List Bool.
From Verif Require Import Outcome Scalar Matrix_model Transpose_model Vector_model LU_model.
Import ListNotations.
Local Open Scope nat_scope.

Section Model.
Context {T : Type} {O : Ops T} {P : POps T}.
Local Open Scope sc_scope.

(** src/algebra/linear/vector/vector.rs:131-144 [p_norm]. *)
Definition vp_norm (v : vector T) (p : T) : outcome T :=
  let! _ := rassert (leb 1 p) in
  let! sum := for_loop 0%nat (rows v * cols v)%nat (fun i s =>
                let! b := vvget v i in Ret (s + tpow b p)) 0 in
  Ret (tpow sum (1 / p)).

(** src/algebra/linear/vector/vector.rs:180-185 [eucl_norm]. *)
Definition veucl_norm (v : vector T) : outcome T := vp_norm v two.

(** src/algebra/linear/vector/vector.rs:509-521 [reflector]; [sgn] stands for [Sign::sign]. *)
Definition vreflector (sgn : T -> T) (v : vector T) : outcome (vector T) :=
  let tw := 1 + 1 in
  let! norm_x := vp_norm v tw in
  let! x0 := vvget v 0%nat in
  let! x := vvset v 0%nat (x0 + sgn x0 * norm_x) in
  let! nx := vp_norm x tw in
  let! y0 := vvget x 0%nat in
  vvset x 0%nat (y0 / nx).

(** src/algebra/linear/matrix/cholesky/native.rs:38-67 [dec_cholesky]; [CholeskyDec] is a wrapper around L. *)
Definition dec_cholesky (A : matrix T) : outcome (result (matrix T)) :=
  let! _ := rassert (rows A =? cols A)%nat in
  let! l := for_loop 0%nat (cols A) (fun i l =>
    for_loop 0%nat (i + 1)%nat (fun j l =>
      let! sum := for_loop 0%nat j (fun k s =>
                    let! x := mget l i k in
                    let! y := mget l j k in
                    Ret (s + x * y)) 0 in
      if (i =? j)%nat
      then let! x := mget A i i in mset l i j (tsqrt (x - sum))
      else let! x := mget A i j in
           let! y := mget l j j in
           mset l i j ((x - sum) / y)) l) (mzero (rows A) (cols A)) in
  Ret (Ok l).

(** src/algebra/linear/matrix/matrix.rs:347-360 [givens]. *)
Definition mgivens (m i j : nat) (c s : T) : outcome (matrix T) :=
  let! _ := rassert (negb ((m <=? i)%nat || (m <=? j)%nat)) in
  let! g := mone m in
  let! g := mset g i i c in
  let! g := mset g j j c in
  let! g := mset g i j s in
  mset g j i (- s).

(** src/algebra/linear/matrix/matrix.rs:367-397 [givens_cosine_sine_pair]; [a > b] is [b < a]. *)
Definition givens_pair (a b : T) : T * T :=
  if eqb b 0 then (1, 0)
  else if ltb (tabs a) (tabs b)
  then let tau := - a / b in
       let s := 1 / tpow (1 + tpow tau two) half in
       (s * tau, s)
  else let tau := - b / a in
       let c := 1 / tpow (1 + tpow tau two) half in
       (c, c * tau).

(** src/algebra/linear/matrix/matrix.rs:412-478 [householder]. *)
Definition mhouseholder (v : vector T) (k : nat) : outcome (matrix T) :=
  let v_m := rows v in
  let v_n := cols v in
  let! _ := rassert (negb (v_m <=? k)%nat) in
  let! _ := rassert (negb (v_m =? 0)%nat) in
  if (v_m =? 1)%nat then mone v_m
  else
  let! e := usub v_m 1%nat in
  let! d := vget_slice v k e in
  let! d_0 := vvget d 0%nat in
  let! nrm := vp_norm d two in
  let alpha := if leb 0 d_0 then - nrm else nrm in
  if eqb alpha 0 then mone v_n
  else
  let d_m := rows d in
  let! w0 := vvset (vzero d_m) 0%nat (tpow (half * (1 - d_0 / alpha)) half) in
  let! x0 := vvget w0 0%nat in
  let p := - alpha * x0 in
  let! dm1 := usub d_m 1%nat in
  let! w1 := (if (1 <=? dm1)%nat
              then let! t := vget_slice d 1%nat dm1 in
                   vset_slice w0 (vapply (fun e => e / (two * p)) t) 1%nat
              else Ret w0) in
  let! w := vset_slice (vzero v_m) w1 k in
  let! ident := mone v_m in
  let! wd := vdyadp w w in
  msub ident (mmul_scalar wd two).

(** src/algebra/linear/matrix/qr/native.rs:30-59 [dec_qr]: one inner iteration on the pair (q, r). *)
Definition qr_step (j i : nat) (st : matrix T * matrix T) : outcome (matrix T * matrix T) :=
  let q := fst st in
  let r := snd st in
  let! a_jj := mget r j j in
  let! a_ij := mget r i j in
  let p := tpow (a_jj * a_jj + a_ij * a_ij) half in
  if negb (eqb p 0) && negb (eqb a_jj 0) && negb (eqb a_ij 0)
  then let c := a_jj / p in
       let s := - a_ij / p in
       let! g := mgivens (rows r) i j c s in
       let! r := mmul g r in
       let! q := mmul g q in
       Ret (q, r)
  else Ret (q, r).

(** src/algebra/linear/matrix/qr/native.rs:30-59 [dec_qr]; the result is the pair (Q, R). *)
Definition dec_qr (A : matrix T) : outcome (matrix T * matrix T) :=
  let! _ := rassert (cols A <=? rows A)%nat in
  let! q := mone (rows A) in
  let! st := for_loop 0%nat (cols A) (fun j st =>
               for_loop_rev (j + 1)%nat (rows A) (qr_step j) st) (q, A) in
  let! q := mtranspose (fst st) in
  Ret (q, snd st).

(** src/algebra/linear/matrix/hessenberg/native.rs:33-55 [dec_hessenberg]; the result is the pair (Q, H). *)
Definition hess_step (k : nat) (st : matrix T * matrix T) : outcome (matrix T * matrix T) :=
  let q := fst st in
  let h := snd st in
  let! k1 := usub k 1%nat in
  let! v := mget_column h k1 in
  let! hh := mhouseholder v k in
  let! h := mmul hh h in
  let! q := mmul hh q in
  let! ht := mtranspose hh in
  let! h := mmul h ht in
  Ret (q, h).
(** src/algebra/linear/matrix/hessenberg/native.rs:33-55 (continued). *)
Definition dec_hessenberg (A : matrix T) : outcome (matrix T * matrix T) :=
  let! _ := rassert (rows A =? cols A)%nat in
  let! _ := rassert (negb (rows A =? 0)%nat) in
  let! q := mone (rows A) in
  let! st := for_loop 1%nat (rows A) hess_step (q, A) in
  let! q := mtranspose (fst st) in
  Ret (q, snd st).

End Model.
