(** Which laws of the algebraic traits (Magma, Semigroup, Monoid, Group, Ring, Field) the built-in numbers, complex
    numbers and polynomials satisfy. *)
From Coq Require Import List ZArith Reals Bool SpecFloat Lia Lra.
From Verif Require Import Outcome Scalar Int_model Int_spec F64_spec Poly_model Complex_model Alg_model.
From Verif Require Import Int_proofs F64Flocq F64Err_proofs Alg_proofs.
Import ListNotations.

(** Integers, overflow checks on: [operate] returns the mathematical result or panics. *)
Theorem C109_int_operate : forall (t : ity) (a b : Z),
  (in_ity t (a + b) -> ioperate_add t a b = Ret (a + b)%Z) /\ (~ in_ity t (a + b) -> ioperate_add t a b = Panic) /\
  (in_ity t (a * b) -> ioperate_mul t a b = Ret (a * b)%Z) /\ (~ in_ity t (a * b) -> ioperate_mul t a b = Panic) /\
  (in_ity t a -> ioperate_add t a iid_add = Ret a /\ ioperate_add t iid_add a = Ret a /\
                 ioperate_mul t a iid_mul = Ret a /\ ioperate_mul t iid_mul a = Ret a).
Proof.
  intros t a b. unfold ioperate_add, ioperate_mul, iid_add, iid_mul. repeat split; try (intros H; now (apply ichk_ok || apply ichk_bad)).
  all: rewrite ?Z.add_0_r, ?Z.add_0_l, ?Z.mul_1_r, ?Z.mul_1_l; now apply ichk_ok.
Qed.
Print Assumptions C109_int_operate.
(** [is_associative] on integers never returns false: it is true when no intermediate result leaves the range and
    panics otherwise. *)
Theorem C109_int_associative : forall (t : ity) (a b c : Z),
  (in_ity t (a + b) /\ in_ity t (b + c) /\ in_ity t (a + b + c) -> is_associative (ioperate_add t) Z.eqb a b c = Ret true) /\
  (~ (in_ity t (a + b) /\ in_ity t (b + c) /\ in_ity t (a + b + c)) -> is_associative (ioperate_add t) Z.eqb a b c = Panic) /\
  (in_ity t (a * b) /\ in_ity t (b * c) /\ in_ity t (a * b * c) -> is_associative (ioperate_mul t) Z.eqb a b c = Ret true) /\
  (~ (in_ity t (a * b) /\ in_ity t (b * c) /\ in_ity t (a * b * c)) -> is_associative (ioperate_mul t) Z.eqb a b c = Panic).
Proof.
  intros t a b c. destruct (iassoc_add t a b c) as [A B]. destruct (iassoc_mul t a b c) as [C D]. now repeat split.
Qed.
Print Assumptions C109_int_associative.
(** The group law of the signed types: every value but the smallest has an additive inverse. *)
Theorem C109_int_inverse : forall (t : ity) (a : Z), isigned t = true -> (0 < iwidth t)%Z -> in_ity t a ->
  (a <> (- 2 ^ (iwidth t - 1))%Z -> exists b, ineg t a = Ret b /\ in_ity t b /\ ioperate_add t a b = Ret iid_add) /\
  (a = (- 2 ^ (iwidth t - 1))%Z -> ineg t a = Panic /\ forall b, in_ity t b -> ioperate_add t a b <> Ret iid_add).
Proof.
  intros t a Hs Hw Ha. destruct (ineg_ok t a Hs Ha) as [A B]. unfold imin in A, B. rewrite Hs in A, B. split; [exact A|]. intros E. exact (B E Hw).
Qed.
Print Assumptions C109_int_inverse.
(** Integers, overflow checks off: wrapping arithmetic is a commutative ring on the range of the type. *)
Theorem C109_int_wrapping : forall (t : ity), (0 < iwidth t)%Z -> forall a b c : Z, in_ity t a ->
  in_ity t (woperate_add t a b) /\ in_ity t (woperate_mul t a b) /\
  woperate_add t (woperate_add t a b) c = woperate_add t a (woperate_add t b c) /\
  woperate_mul t (woperate_mul t a b) c = woperate_mul t a (woperate_mul t b c) /\
  woperate_add t a b = woperate_add t b a /\ woperate_mul t a b = woperate_mul t b a /\
  woperate_mul t a (woperate_add t b c) = woperate_add t (woperate_mul t a b) (woperate_mul t a c) /\
  woperate_add t a iid_add = a /\ woperate_mul t a iid_mul = a /\ woperate_add t a (wneg t a) = iid_add.
Proof. exact wrap_ring. Qed.
Print Assumptions C109_int_wrapping.
(** With overflow checks the two bracketings of i8 can differ: one panics, the other returns. *)
Theorem C109_int_associative_refuted :
  in_ity i8 127 /\ in_ity i8 1 /\ in_ity i8 (-1) /\
  (let! s := ioperate_add i8 127 1 in ioperate_add i8 s (-1)%Z) = Panic /\
  (let! s := ioperate_add i8 1 (-1) in ioperate_add i8 127 s) = Ret 127%Z /\
  is_associative (ioperate_add i8) Z.eqb 127%Z 1%Z (-1)%Z = Panic.
Proof. unfold in_ity, i8; cbn. repeat split; lia. Qed.
Print Assumptions C109_int_associative_refuted.
Example C109_int_example : in_ity i32 (2000000000 + -5) /\ in_ity i32 (-5 + 7) /\ in_ity i32 (2000000000 + -5 + 7) /\
  is_associative (ioperate_add i32) Z.eqb 2000000000%Z (-5)%Z 7%Z = Ret true /\ woperate_add u8 200 100 = 44%Z /\ woperate_mul i8 100 3 = 44%Z /\
  ineg i8 (-128) = Panic /\ ineg i8 (-127) = Ret 127%Z.
Proof. unfold in_ity, i32; cbn. repeat split; lia. Qed.

(** f64: addition and multiplication commute, 0 and 1 are neutral, finite values have an additive inverse and finite
    nonzero values divide to 1. *)
Theorem C109_f64_laws : forall x y : f64, fvalid x -> fvalid y ->
  foperate_add x y = foperate_add y x /\ foperate_mul x y = foperate_mul y x /\
  (x <> S754_nan -> eqb (add x zero) x = true) /\ mul x one = x /\
  (ffin x = true -> add x (neg x) = zero) /\ (ffin x = true -> fval x <> 0%R -> div x x = one).
Proof.
  intros x y Hx Hy. unfold foperate_add, foperate_mul. rewrite fadd_comm, fmul_comm. split; [reflexivity|]. split; [reflexivity|].
  split; [apply fadd_zero_r|]. split; [now apply fmul_one|]. split; [apply fadd_neg|now apply fdiv_self].
Qed.
Print Assumptions C109_f64_laws.
(** f64: [is_associative] is true whenever the exact sums (products) involved are themselves f64 values. *)
Theorem C109_f64_associative_exact : forall x y z : f64, fvalid x -> fvalid y -> fvalid z -> ffin x = true -> ffin y = true -> ffin z = true ->
  forall s1 s2 s3 : f64, fvalid s1 -> fvalid s2 -> fvalid s3 ->
  (fval s1 = fval x + fval y -> fval s2 = fval y + fval z -> fval s3 = fval x + fval y + fval z -> is_associative foperate_add eqb x y z = Ret true)%R /\
  (fval s1 = fval x * fval y -> fval s2 = fval y * fval z -> fval s3 = fval x * fval y * fval z -> is_associative foperate_mul eqb x y z = Ret true)%R.
Proof.
  intros x y z Hx Hy Hz Fx Fy Fz s1 s2 s3 H1 H2 H3. split; intros E1 E2 E3.
  - exact (fassoc_add_exact x y z s1 s2 s3 Hx Hy Hz Fx Fy Fz H1 H2 H3 E1 E2 E3).
  - exact (fassoc_mul_exact x y z s1 s2 s3 Hx Hy Hz Fx Fy Fz H1 H2 H3 E1 E2 E3).
Qed.
Print Assumptions C109_f64_associative_exact.
(** f64: in general the two bracketings differ by rounding errors only. *)
Theorem C109_f64_associative_error : forall x y z : f64, fvalid x -> fvalid y -> fvalid z ->
  (ffin (add (add x y) z) = true -> ffin (add x (add y z)) = true ->
    Rabs (fval (add (add x y) z) - fval (add x (add y z))) <= 2 * gam 2 * (Rabs (fval x) + Rabs (fval y) + Rabs (fval z)))%R /\
  (ffin (mul (mul x y) z) = true -> ffin (mul x (mul y z)) = true ->
    Rabs (fval (mul (mul x y) z) - fval (mul x (mul y z))) <=
      2 * gam 2 * Rabs (fval x * fval y * fval z) + eta64 * (2 + (1 + uro) * (Rabs (fval x) + Rabs (fval z))))%R.
Proof. intros x y z Hx Hy Hz. split; intros; [now apply fassoc_add_err|now apply fassoc_mul_err]. Qed.
Print Assumptions C109_f64_associative_error.
(** f64 is no semigroup, ring or field: associativity fails for + and * at 0.1, 0.2, 0.3, distributivity at 10, 0.1,
    0.2, 49 * (1/49) is not 1, infinity has no additive inverse, NaN is not even equal to NaN + 0. *)
Theorem C109_f64_laws_refuted :
  let a := S754_finite false 7205759403792794 (-56) in let b := S754_finite false 7205759403792794 (-55) in
  let c := S754_finite false 5404319552844595 (-54) in let ten := S754_finite false 5629499534213120 (-49) in
  let n49 := S754_finite false 6896136929411072 (-47) in
  is_associative (A := f64) foperate_add eqb a b c = Ret false /\ is_associative (A := f64) foperate_mul eqb a b c = Ret false /\
  eqb (T := f64) (mul ten (add a b)) (add (mul ten a) (mul ten b)) = false /\
  eqb (T := f64) (mul n49 (div one n49)) one = false /\
  (forall y : f64, add (S754_infinity false) y <> zero) /\
  eqb (T := f64) (add S754_nan zero) S754_nan = false.
Proof.
  cbv zeta. repeat split; try (vm_compute; reflexivity). intros [s|s| |s m e]; try discriminate. destruct s; discriminate.
Qed.
Print Assumptions C109_f64_laws_refuted.
Example C109_f64_example : let one := S754_finite false 4503599627370496 (-52) in let two := S754_finite false 4503599627370496 (-51) in
  fvalid one /\ fvalid two /\ ffin one = true /\ is_associative (A := f64) foperate_add eqb one two one = Ret true.
Proof. repeat split; vm_compute; reflexivity. Qed.

(** Polynomial addition over a ring: [is_associative] is true, it commutes, and [id] is neutral. *)
Theorem C109_poly : forall (T : Type) (O : Ops T), RingLaws O -> EqLaws O -> forall p q r : poly T, p <> [] -> q <> [] -> r <> [] ->
  is_associative padd peqb p q r = Ret true /\ padd p q = padd q p /\
  exists e, pid_add = Ret e /\ padd p e = Ret p /\ padd e p = Ret p.
Proof.
  intros T O L E p q r Hp Hq Hr. split; [now apply padd_assoc|]. split; [now apply padd_comm|now apply padd_id].
Qed.
Print Assumptions C109_poly.
(** Complex numbers over a ring: both operations are associative, commute and have the identities returned by [id]. *)
Theorem C109_complex : forall (T : Type) (O : Ops T), RingLaws O -> EqLaws O -> forall z w v : cplx T,
  is_associative coperate_add ceqb z w v = Ret true /\ is_associative (fun a b => Ret (coperate_mul a b)) ceqb z w v = Ret true /\
  coperate_add z w = coperate_add w z /\ coperate_mul z w = coperate_mul w z /\
  coperate_add z cid_add = Ret z /\ coperate_add cid_add z = Ret z /\ coperate_mul z cid_mul = z /\ coperate_mul cid_mul z = z.
Proof.
  intros T O L E z w v. destruct (cassoc L E z w v). destruct (ccomm L z w). destruct (cident L z) as (? & ? & ? & ?). now repeat split.
Qed.
Print Assumptions C109_complex.
Example C109_generic_example : RingLaws R_ops /\ EqLaws R_ops /\ is_associative (A := poly Qcanon.Qc) padd peqb [one; one] [one] [one; zero; one] = Ret true.
Proof. split; [exact R_RingLaws|]. split; [exact R_EqLaws|]. vm_compute. reflexivity. Qed.
