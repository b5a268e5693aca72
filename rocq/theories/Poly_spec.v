(** Specification vocabulary for polynomials. *)
From Coq Require Import Arith List Bool Reals.
From Verif Require Import Outcome Scalar.
Import ListNotations.
Local Open Scope nat_scope.

Section S.
Context {T : Type} {O : Ops T}.

(** The coefficient of x^i; zero beyond the stored ones. *)
Definition coefn (p : list T) (i : nat) : T := nth i p zero.
(** x^k by repeated multiplication. *)
Fixpoint npow (x : T) (k : nat) : T := match k with 0 => one | S k => mul x (npow x k) end.
(** The value of the polynomial: sum of c_i x^i. *)
Definition pval (p : list T) (x : T) : T := sumn (length p) (fun i => mul (coefn p i) (npow x i)).
(** Product of f 0 ... f (n-1). *)
Fixpoint prodn (n : nat) (f : nat -> T) : T := match n with 0 => one | S k => mul (prodn k f) (f k) end.
(** Two coefficient lists denote the same polynomial. *)
Definition same_poly (p q : list T) : Prop := forall i, coefn p i = coefn q i.
End S.

Section Div.
Context {T : Type} {O : Ops T}.
(** The coefficient of x^k of the product of two polynomials. *)
Definition prod_coef (p q : list T) (k : nat) : T := sumn (S k) (fun i => mul (coefn p i) (coefn q (k - i))).
(** [c] counts as zero with tolerance [eps]: |c - 0| <= eps. *)
Definition negligible (eps c : T) : Prop := leb (tabs (sub c zero)) eps = true.
(** [s] is [p] with trailing negligible coefficients removed (at least one coefficient is kept). *)
Definition reduced (eps : T) (p s : list T) : Prop :=
  exists k, 1 <= k <= length p /\ s = firstn k p /\
    (forall i, k <= i < length p -> negligible eps (coefn p i)) /\
    (k = 1 \/ ~ negligible eps (coefn p (k - 1))).
(** Only zero counts as zero. *)
Definition exact_eps (eps : T) : Prop := forall c, negligible eps c <-> c = zero.
End Div.
