(** Model of polynomials: src/algebra/abstr/polynomial.rs.  Definitions only.

    [Display] (117-159) and [AbsDiffEq] (689-692, always panics) are not modelled. *)
From Coq Require Import Arith List Bool ZArith QArith Qcanon Reals.
From Verif Require Import Outcome Scalar Approx_model.
Import ListNotations.
Local Open Scope nat_scope.

(** [T::from_f64(k as f64)], [T::from_u128(k)] and similar conversions of natural numbers. *)
Class NOps (T : Type) := { of_nat : nat -> T }.
(** Conversions to exact reals. *)
#[global] Instance R_nops : NOps R := { of_nat := INR }.
(** Conversions to rationals. *)
#[global] Instance Qc_nops : NOps Qc := { of_nat := fun n => Q2Qc (inject_Z (Z.of_nat n)) }.

(** src/algebra/abstr/polynomial.rs:20-22 [struct Polynomial { coef }]: the coefficients, lowest degree first. *)
Definition poly (T : Type) := list T.

(** src/algebra/abstr/polynomial.rs:48-59 [from_coef]. *)
Definition pfrom_coef {T} (coef : list T) : outcome (poly T) :=
  if length coef =? 0 then Panic else Ret coef.

(** src/algebra/abstr/polynomial.rs:432-435 [degree]. *)
Definition pdegree {T} (p : poly T) : outcome nat := usub (length p) 1.

Section Model.
Context {T : Type} {O : Ops T}.
Local Open Scope sc_scope.

(** src/algebra/abstr/polynomial.rs:89-114 [from_root]. *)
Definition pfrom_root (root : list T) : outcome (poly T) :=
  if (length root =? 0)%nat then Panic
  else
    let n := length root in
    let! coef := vset (repeat 0 (n + 1)%nat) n 1 in
    let! coef := for_loop 1%nat (n + 1)%nat (fun i coef =>
      let! lo := usub n i in
      for_loop lo n (fun j coef =>
        let! c := vget coef (j + 1)%nat in
        let! k := usub i 1%nat in
        let! r := vget root k in
        let! x := vget coef j in
        vset coef j (x + (neg one) * r * c)) coef) coef in
    pfrom_coef coef.

(** src/algebra/abstr/polynomial.rs:184-193 [eval]. *)
Definition peval (p : poly T) (x : T) : T :=
  fold_left (fun s v => v + (x * s)) (rev p) 0.

(** src/algebra/abstr/polynomial.rs:247-263 [add], 325-341 [sub]: the common part is combined by [op], the rest is
    copied from the longer operand (from [rhs] when the lengths agree). *)
Definition pzip (op : T -> T -> T) (p q : poly T) : outcome (poly T) :=
  let sum := if (length q <? length p)%nat then p else q in
  let! sum := for_loop 0%nat (Nat.min (length p) (length q)) (fun i sum =>
                let! a := vget p i in
                let! b := vget q i in
                vset sum i (op a b)) sum in
  pfrom_coef sum.
(** src/algebra/abstr/polynomial.rs:247-263 (continued). *)
Definition padd (p q : poly T) : outcome (poly T) := pzip add p q.
(** src/algebra/abstr/polynomial.rs:247-263 (continued). *)
Definition psub (p q : poly T) : outcome (poly T) := pzip sub p q.

(** src/algebra/abstr/polynomial.rs:357-360, 739-742 [zero], [id]. *)
Definition pzero : outcome (poly T) := pfrom_coef [0].

(** src/algebra/abstr/polynomial.rs:383-388, 407-412 [neg]. *)
Definition pneg (p : poly T) : outcome (poly T) := pfrom_coef (map (fun x => - x) p).

(** src/algebra/abstr/polynomial.rs:498-516 [mul]. *)
Definition pmul (p q : poly T) : outcome (poly T) :=
  let! dl := pdegree p in
  let! dr := pdegree q in
  let! res := for_loop 0%nat (length p) (fun i res =>
    for_loop 0%nat (length q) (fun j res =>
      let! a := vget p i in
      let! b := vget q j in
      let! x := vget res (i + j)%nat in
      vset res (i + j)%nat (x + a * b)) res) (repeat 0 (dl + dr + 1)%nat) in
  pfrom_coef res.

(** src/algebra/abstr/polynomial.rs:582-598 [reduce_coef]: [for i in (1..len).rev()] with [break]; [eps] is
    [T::default_epsilon()]. *)
Fixpoint reduce_loop (eps : T) (i : nat) (coef : list T) : outcome (list T) :=
  match i with
  | 0%nat => Ret coef
  | S i' =>
      let! v := vget coef i in
      if sabs_diff_eq v 0 eps then reduce_loop eps i' (removelast coef) else Ret coef
  end.
(** src/algebra/abstr/polynomial.rs:582-598 (continued). *)
Definition reduce_coef (eps : T) (coef : list T) : outcome (list T) :=
  reduce_loop eps (length coef - 1)%nat coef.

(** src/algebra/abstr/polynomial.rs:600-603 [reduce]. *)
Definition preduce (eps : T) (p : poly T) : outcome (poly T) :=
  let! c := reduce_coef eps p in pfrom_coef c.

(** src/algebra/abstr/polynomial.rs:552-576 [div]. *)
Definition pdiv (eps : T) (p q : poly T) : outcome (poly T * poly T) :=
  let! dq := pdegree q in
  let! dp := pdegree p in
  if (dp <? dq)%nat
  then let! z := pzero in Ret (z, p)
  else
    let! qd := usub dp dq in
    let! st := for_loop_rev 0%nat (qd + 1)%nat (fun i (st : list T * list T) =>
      let! a := vget (snd st) (dq + i)%nat in
      let! b := vget q dq in
      let c := a / b in
      let! quo := vset (fst st) i c in
      let! rem := for_loop 0%nat (length q) (fun k rem =>
        let! v := vget q k in
        let! x := vget rem (k + i)%nat in
        vset rem (k + i)%nat (x - v * c)) (snd st) in
      Ret (quo, rem)) (repeat 0 (qd + 1)%nat, p) in
    let! quo := pfrom_coef (fst st) in
    let! r := reduce_coef eps (snd st) in
    let! rem := pfrom_coef r in
    Ret (quo, rem).

Context {N : NOps T}.

(** src/algebra/abstr/polynomial.rs:629-643 [differentiate]. *)
Definition pdiff (eps : T) (p : poly T) : outcome (poly T) :=
  let! d := pdegree p in
  if (d =? 0)%nat then pfrom_coef [0]
  else
    let! c := for_loop 1%nat (length p) (fun i c =>
                let! a := vget p i in Ret (c ++ [of_nat i * a])) [] in
    let! c := reduce_coef eps c in
    pfrom_coef c.

(** src/algebra/abstr/polynomial.rs:665-676 [integrate]. *)
Definition pinteg (eps : T) (p : poly T) : outcome (poly T) :=
  let! c := for_loop 0%nat (length p) (fun i c =>
              let! a := vget p i in Ret (c ++ [a / of_nat (i + 1)%nat])) [0] in
  let! c := reduce_coef eps c in
  pfrom_coef c.

End Model.
