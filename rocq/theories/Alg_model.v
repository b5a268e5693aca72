(** Model of the algebraic traits: src/algebra/abstr/magma.rs, semigroup.rs, identity.rs, monoid.rs, group.rs and
    their instances for the built-in numbers, complex numbers and polynomials.  Definitions only. *)
From Coq Require Import List ZArith Bool.
From Verif Require Import Outcome Scalar Int_model Poly_model Complex_model.
Import ListNotations.
Local Open Scope Z_scope.

(** src/algebra/abstr/semigroup.rs:19-22 [is_associative]: both bracketings are evaluated, left one first, and
    compared with [==]. [op] is [operate]; it may panic. *)
Definition is_associative {A} (op : A -> A -> outcome A) (eq : A -> A -> bool) (x y z : A) : outcome bool :=
  let! xy := op x y in
  let! l := op xy z in
  let! yz := op y z in
  let! r := op x yz in
  Ret (eq l r).

(** src/algebra/abstr/magma.rs:22-38 [Magma<Addition>] for the integers: [+] with overflow checks. *)
Definition ioperate_add (t : ity) (a b : Z) : outcome Z := ichk t (a + b).
(** src/algebra/abstr/magma.rs:22-39 [Magma<Multiplication>] for the integers. *)
Definition ioperate_mul (t : ity) (a b : Z) : outcome Z := ichk t (a * b).
(** src/algebra/abstr/group.rs:40-43 [GroupAdd] asks for unary minus: negation of an integer with overflow checks. *)
Definition ineg (t : ity) (a : Z) : outcome Z := ichk t (- a).
(** src/algebra/abstr/identity.rs:27 [Identity<Addition>::id] and monoid.rs:121 [Zero::zero] of the integers. *)
Definition iid_add : Z := 0.
(** src/algebra/abstr/identity.rs:29 [Identity<Multiplication>::id] and monoid.rs:97 [One::one] of the integers. *)
Definition iid_mul : Z := 1.
(** src/algebra/abstr/magma.rs:22-38 built without overflow checks: [+] wraps. *)
Definition woperate_add (t : ity) (a b : Z) : Z := as_int t (a + b).
(** src/algebra/abstr/magma.rs:22-39 built without overflow checks: [*] wraps. *)
Definition woperate_mul (t : ity) (a b : Z) : Z := as_int t (a * b).
(** src/algebra/abstr/group.rs:40-43 unary minus built without overflow checks. *)
Definition wneg (t : ity) (a : Z) : Z := as_int t (- a).

Section Float.
Context {T : Type} {O : Ops T}.
(** src/algebra/abstr/magma.rs:38 [Magma<Addition>] for the floats. *)
Definition foperate_add (a b : T) : outcome T := Ret (add a b).
(** src/algebra/abstr/magma.rs:39 [Magma<Multiplication>] for the floats. *)
Definition foperate_mul (a b : T) : outcome T := Ret (mul a b).
(** src/num/complex.rs:1263-1269 [Magma<Addition>] of complex numbers. *)
Definition coperate_add (z w : cplx T) : outcome (cplx T) := Ret (mkC (add (re z) (re w)) (add (im z) (im w))).
(** src/num/complex.rs:1246-1252 [Identity<Addition>] of complex numbers. *)
Definition cid_add : cplx T := mkC zero zero.
(** src/num/complex.rs:1254-1261 [Identity<Multiplication>] of complex numbers. *)
Definition cid_mul : cplx T := mkC one zero.
(** src/algebra/abstr/polynomial.rs:736-743 [Identity<Addition>] of polynomials. *)
Definition pid_add : outcome (poly T) := pfrom_coef [zero].
(** src/algebra/abstr/polynomial.rs:19 derived [PartialEq]: equal lengths and equal coefficients. *)
Definition peqb (p q : poly T) : bool :=
  (length p =? length q)%nat && forallb (fun ab => eqb (fst ab) (snd ab)) (combine p q).
End Float.
