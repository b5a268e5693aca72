(** C119: polynomial arithmetic in binary64. *)
From Coq Require Import Arith Lia List Bool ZArith Reals Lra SpecFloat.
From Flocq Require Import Core.
From Verif Require Import Outcome Scalar RealOps Approx_model Int_model Matrix_spec Poly_model Poly_spec F64_spec F64Poly_spec F64Poly_proofs.
Import ListNotations.
Local Open Scope R_scope.
Local Notation rsum := (@sumn R R_ops).

(** Addition: every finite coefficient of the sum is correct to one rounding. *)
Theorem C119_add : forall p q : list f64, p <> [] -> q <> [] -> Forall fvalid p -> Forall fvalid q ->
  exists s, padd p q = Ret s /\ length s = Nat.max (length p) (length q) /\
  forall k, (k < length s)%nat -> ffin (coefn s k) = true ->
    Rabs (fval (coefn s k) - (fval (coefn p k) + fval (coefn q k))) <= uro * Rabs (fval (coefn p k) + fval (coefn q k)).
Proof. exact padd_f64. Qed.
Print Assumptions C119_add.
(** Subtraction: the same on the positions that both operands have (C29 treats the others). *)
Theorem C119_sub : forall p q : list f64, p <> [] -> q <> [] -> Forall fvalid p -> Forall fvalid q ->
  exists s, psub p q = Ret s /\ length s = Nat.max (length p) (length q) /\
  forall k, (k < Nat.min (length p) (length q))%nat -> ffin (coefn s k) = true ->
    Rabs (fval (coefn s k) - (fval (coefn p k) - fval (coefn q k))) <= uro * Rabs (fval (coefn p k) - fval (coefn q k)).
Proof. exact psub_f64. Qed.
Print Assumptions C119_sub.
(** Multiplication: every finite coefficient is within gam (c + 1) times the sum of the moduli of its terms of the exact coefficient, where c is
    the number of coefficients of the shorter factor, plus what underflow can contribute. *)
Theorem C119_mul : forall p q : list f64, p <> [] -> q <> [] -> Forall fvalid p -> Forall fvalid q ->
  exists s, pmul p q = Ret s /\ length s = (length p + length q - 1)%nat /\ Forall fvalid s /\
  forall k, (k < length s)%nat -> ffin (coefn s k) = true ->
    let c := Nat.min (length p) (length q) in
    Rabs (fval (coefn s k) - rsum (S k) (fun i => fval (coefn p i) * fval (coefn q (k - i)))) <=
      gam (S c) * rsum (S k) (fun i => Rabs (fval (coefn p i) * fval (coefn q (k - i)))) + INR c * eta64 * (1 + uro) ^ c.
Proof. exact pmul_f64. Qed.
Print Assumptions C119_mul.
(** Construction from the roots r: the polynomial is monic, and if nothing overflows its coefficients are close to those of the product of the
    x - r_i, relative to the coefficients of the product of the x + |r_i|. *)
Theorem C119_from_roots : forall r : list f64, r <> [] -> Forall fvalid r ->
  exists s, pfrom_root r = Ret s /\ length s = S (length r) /\ Forall fvalid s /\ coefn s (length r) = one /\
  (Forall (fun v => ffin v = true) s -> forall t, (t < length s)%nat -> let n := length r in
    Rabs (fval (coefn s t) - root_coef n (fun i => - fval (coefn r i)) t) <=
      gam (2 * n) * root_coef n (fun i => Rabs (fval (coefn r i))) t + eta64 * (1 + uro) ^ (2 * n) * root_coef n (fun i => 1 + Rabs (fval (coefn r i))) t).
Proof. exact pfrom_root_f64. Qed.
Print Assumptions C119_from_roots.
(** root_coef are the coefficients of the product: the specification of the theorem above, checked against the product itself. *)
Theorem C119_root_coef : forall n f x, rsum (S n) (fun t => root_coef n f t * x ^ t) = root_prod n f x.
Proof. exact rc_prod. Qed.
Print Assumptions C119_root_coef.
(** Division: with a the quotient and r the remainder before its negligible leading coefficients are dropped, p = a q + r holds in every finite
    position up to gam c times the moduli of the terms, and the positions that should have been cancelled hold no more than the rounding error of
    their own elimination. A divisor whose leading coefficient is 0 makes these positions infinite or NaN, and nothing is claimed of them. *)
Theorem C119_div : forall eps (p q : list f64), q <> [] -> (length q <= length p)%nat -> Forall fvalid p -> Forall fvalid q ->
  exists a b r, pdiv eps p q = Ret (a, b) /\ length a = (length p + 1 - length q)%nat /\ length r = length p /\ reduced eps r b /\ Forall fvalid a /\ Forall fvalid r /\
  forall k, (k < length p)%nat -> ffin (coefn r k) = true ->
    (let c := Nat.min (length a) (length q) in
     Rabs (fval (coefn p k) - (rsum (S k) (fun j => fval (coefn a j) * fval (coefn q (k - j))) + fval (coefn r k))) <=
       gam c * (Rabs (fval (coefn r k)) + rsum (S k) (fun j => Rabs (fval (coefn a j) * fval (coefn q (k - j))))) + INR c * eta64 * (1 + uro) ^ c) /\
    ((length q - 1 <= k)%nat -> let l := fval (coefn q (length q - 1)) in
     Rabs (fval (coefn r k)) <= 3 * uro * Rabs (l * fval (coefn a (k - (length q - 1)))) + 2 * eta64 * (1 + Rabs l)).
Proof. exact pdiv_f64. Qed.
Print Assumptions C119_div.
(** Differentiation and integration: one rounding for every coefficient, before negligible leading coefficients are dropped. *)
Theorem C119_differentiate : forall eps (p : list f64), p <> [] -> Forall fvalid p -> (Z.of_nat (length p) <= 2 ^ 53)%Z ->
  exists s, pdiff eps p = Ret s /\
  ((length p = 1%nat /\ s = [zero]) \/
   exists r, reduced eps r s /\ length r = (length p - 1)%nat /\
     forall k, (k < length r)%nat -> ffin (coefn r k) = true ->
       Rabs (fval (coefn r k) - INR (S k) * fval (coefn p (S k))) <= uro * Rabs (INR (S k) * fval (coefn p (S k))) + eta64).
Proof. exact pdiff_f64. Qed.
Print Assumptions C119_differentiate.
Theorem C119_integrate : forall eps (p : list f64), Forall fvalid p -> (Z.of_nat (length p) <= 2 ^ 53)%Z ->
  exists s r, pinteg eps p = Ret s /\ reduced eps r s /\ length r = S (length p) /\ coefn r 0 = zero /\
     forall k, (k < length p)%nat -> ffin (coefn r (S k)) = true ->
       Rabs (fval (coefn r (S k)) - fval (coefn p k) / INR (S k)) <= uro * Rabs (fval (coefn p k) / INR (S k)) + eta64.
Proof. exact pinteg_f64. Qed.
Print Assumptions C119_integrate.

(** Non-vacuity: 1 + x/3 and 7 + 5 x + 3 x^2 / 7 have valid coefficients, and every coefficient of the results is
    finite. With tolerance 0 the remainder keeps a leading coefficient that rounding left different from 0. *)
Definition ex_p : list f64 := [one; div one (int_as_f64 3)].
Definition ex_q : list f64 := [int_as_f64 7; int_as_f64 5; div (int_as_f64 3) (int_as_f64 7)].
Definition all_fin (o : outcome (list f64)) : bool := match o with Ret s => forallb ffin s | Panic => false end.
Example C119_valid_ex : Forall fvalid ex_p /\ Forall fvalid ex_q.
Proof. split; repeat constructor. Qed.
Example C119_finite_ex : forallb all_fin [padd ex_p ex_q; psub ex_p ex_q; pmul ex_p ex_q; pfrom_root ex_q; pdiff zero ex_q; pinteg zero ex_q] = true /\
  (let! ab := pdiv zero ex_q ex_p in Ret (forallb ffin (fst ab) && forallb ffin (snd ab), length (fst ab), length (snd ab))) = Ret (true, 2%nat, 3%nat).
Proof. split; vm_compute; reflexivity. Qed.
