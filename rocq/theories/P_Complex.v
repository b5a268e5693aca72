(** Property theorems C33-C35 and C66: complex numbers.

    Reading guide.  [mkC x y] is x + iy.  [cadd], [csub], [cmul], [cneg], [cdiv], [cconj], [cabs],
    [carg], [cexp], [cln], [cpow], [csin], ... are the crate's functions; those that divide return
    an [outcome] because complex division panics.  [Ci] is i.  Over [R] the arithmetic and the
    elementary functions of a real argument are exact. *)
From Coq Require Import Reals Lra Bool.
From Coq Require Import Floats.SpecFloat.
From Verif Require Import Outcome Scalar RealOps Elem_model Complex_model Complex_proofs ComplexFun_proofs ComplexProps_proofs ComplexHyp_proofs.
Local Open Scope R_scope.

(** * C33 *)

(** Commutative ring, over any commutative ring of components. *)
Theorem C33_ring : forall (T : Type) (O : Ops T), RingLaws O ->
  (forall z : cplx T, cadd czero z = z) /\
  (forall z w : cplx T, cadd z w = cadd w z) /\
  (forall z w u : cplx T, cadd z (cadd w u) = cadd (cadd z w) u) /\
  (forall z : cplx T, cmul cone z = z) /\
  (forall z w : cplx T, cmul z w = cmul w z) /\
  (forall z w u : cplx T, cmul z (cmul w u) = cmul (cmul z w) u) /\
  (forall z w u : cplx T, cmul (cadd z w) u = cadd (cmul z u) (cmul w u)) /\
  (forall z w : cplx T, csub z w = cadd z (cneg w)) /\
  (forall z : cplx T, cadd z (cneg z) = czero).
Proof. intros T O L. destruct (cplx_ring L) as [H1 H2 H3 H4 H5 H6 H7 H8 H9]. repeat split; assumption. Qed.
Print Assumptions C33_ring.
Example C33_ring_example : forall z w : cplx R, cmul z w = cmul w z.
Proof. exact (proj1 (proj2 (proj2 (proj2 (proj2 (C33_ring R R_ops R_RingLaws)))))). Qed.

(** i^2 = -1, and the embedding of the components is a ring homomorphism. *)
Theorem C33_imaginary_unit : forall (T : Type) (O : Ops T), RingLaws O ->
  cmul (mkC zero one) (mkC zero one) = cneg (cone : cplx T) /\
  (forall x y : T, mkC x y = cadd (mkC x zero) (cmul (mkC zero one) (mkC y zero))) /\
  (forall x y : T, cadd (mkC x zero) (mkC y zero) = mkC (add x y) zero) /\
  (forall x y : T, cmul (mkC x zero) (mkC y zero) = mkC (mul x y) zero).
Proof. exact (fun T O L => cplx_embed L). Qed.
Print Assumptions C33_imaginary_unit.

Theorem C33_div_panics_iff : forall z w : cplx R, cdiv z w = Panic <-> w = mkC 0 0.
Proof. exact cdiv_panics_iff. Qed.
Print Assumptions C33_div_panics_iff.

Theorem C33_div : forall z w : cplx R, w <> mkC 0 0 ->
  (exists q, cdiv z w = Ret q /\ cmul q w = z) /\ cdiv (cmul z w) w = Ret z.
Proof. exact cdiv_undoes. Qed.
Print Assumptions C33_div.
Example C33_div_example : mkC 1 2 <> mkC 0 0.
Proof. intros E. injection E. lra. Qed.

(** In floating point the first part fails: dividing by a non-zero number whose square underflows
    panics (here by 2^-600). *)
Theorem C33_div_panics_iff_f64_refuted :
  let w := mkC (S754_finite false 4503599627370496 (-652)) (zero : f64) in
  ceqb w czero = false /\ cdiv (cone : cplx f64) w = Panic.
Proof. split; vm_compute; reflexivity. Qed.
Print Assumptions C33_div_panics_iff_f64_refuted.

(** == is equality of both components, while < and <= compare real parts only: 1 + 5i <= 1 and
    1 <= 1 + 5i although they differ. *)
Theorem C33_eq : forall z w : cplx R, ceqb z w = true <-> z = w.
Proof. exact ceqb_iff. Qed.
Print Assumptions C33_eq.
Theorem C33_order_antisymmetric_refuted : exists z w : cplx R, cleb z w = true /\ cleb w z = true /\ z <> w.
Proof. exists (mkC 1 5), (mkC 1 0). exact order_not_antisym. Qed.
Print Assumptions C33_order_antisymmetric_refuted.
(** The comparison looks at the real parts only. *)
Theorem C33_order : forall z w : cplx R, (cltb z w = true <-> re z < re w) /\ (cleb z w = true <-> re z <= re w).
Proof. exact order_facts. Qed.
Print Assumptions C33_order.
(** The trait method for multiplication is the operator. *)
Theorem C33_operate : forall (T : Type) (O : Ops T), RingLaws O -> forall z w : cplx T, coperate_mul z w = cmul z w.
Proof. exact operate_mul_facts. Qed.
Print Assumptions C33_operate.

(** * C34 *)
Theorem C34_conj : forall (T : Type) (O : Ops T), RingLaws O -> forall z w : cplx T,
  cconj (cconj z) = z /\ cconj (cadd z w) = cadd (cconj z) (cconj w) /\ cconj (csub z w) = csub (cconj z) (cconj w) /\
  cconj (cmul z w) = cmul (cconj z) (cconj w) /\ cconj cone = (cone : cplx T) /\
  cmul z (cconj z) = mkC (add (mul (re z) (re z)) (mul (im z) (im z))) zero.
Proof. intros T O L z w. repeat split; [apply (cconj_involutive L)|apply (cconj_add L)|apply (cconj_sub L)|apply (cconj_mul L)|apply (cconj_one L)|apply (cmul_conj L)]. Qed.
Print Assumptions C34_conj.

Theorem C34_conj_div : forall z w : cplx R, w <> mkC 0 0 ->
  exists q, cdiv z w = Ret q /\ cdiv (cconj z) (cconj w) = Ret (cconj q).
Proof. exact cconj_div. Qed.
Print Assumptions C34_conj_div.

Theorem C34_abs : forall z : cplx R, cabs z = mkC (sqrt (re z * re z + im z * im z)) 0.
Proof. exact cabs_ok. Qed.
Print Assumptions C34_abs.

Theorem C34_abs_conj : forall z : cplx R, cmul z (cconj z) = cmul (cabs z) (cabs z).
Proof. exact cmul_conj_abs. Qed.
Print Assumptions C34_abs_conj.

Theorem C34_abs_norm : forall z w : cplx R,
  0 <= re (cabs z) /\ (re (cabs z) = 0 <-> z = mkC 0 0) /\
  cabs (cmul z w) = cmul (cabs z) (cabs w) /\ re (cabs (cadd z w)) <= re (cabs z) + re (cabs w).
Proof. exact cabs_norm. Qed.
Print Assumptions C34_abs_norm.

Theorem C34_polar : forall z : cplx R, z <> mkC 0 0 ->
  let r := re (cabs z) in let t := re (carg z) in
  0 < r /\ - PI < t <= PI /\ im (carg z) = 0 /\ z = mkC (r * cos t) (r * sin t).
Proof. exact polar_form. Qed.
Print Assumptions C34_polar.
(** The same angle from arctan2 of two reals. *)
Theorem C34_arctan2 : forall x y : R, x <> 0 \/ y <> 0 -> let r := sqrt (x * x + y * y) in let t := earctan2 y x in
  - PI < t <= PI /\ x = r * cos t /\ y = r * sin t.
Proof. exact arctan2_facts. Qed.
Print Assumptions C34_arctan2.

(** Modulus and argument are determined by the polar form: no other choice is possible. *)
Theorem C34_polar_unique : forall r t : R, 0 < r -> - PI < t <= PI ->
  let z := mkC (r * cos t) (r * sin t) in cabs z = mkC r 0 /\ carg z = mkC t 0.
Proof. exact polar_unique. Qed.
Print Assumptions C34_polar_unique.
Example C34_polar_example : - PI < PI <= PI /\ 0 < 3.
Proof. pose proof PI_RGT_0. lra. Qed.

(** * C35 *)
Theorem C35_exp : (forall z w : cplx R, cexp (cadd z w) = cmul (cexp z) (cexp w)) /\ cexp (mkC 0 0) = mkC 1 0 /\
  (forall t : R, cexp (mkC 0 t) = mkC (cos t) (sin t)) /\ (forall t : R, cexp (mkC t 0) = mkC (exp t) 0) /\
  (forall z : cplx R, cexp z <> mkC 0 0 /\ cabs (cexp z) = mkC (exp (re z)) 0).
Proof. exact cexp_facts. Qed.
Print Assumptions C35_exp.

Theorem C35_exp_ln : forall z : cplx R, z <> mkC 0 0 -> cexp (cln z) = z /\ - PI < im (cln z) <= PI.
Proof. intros z H. split; [exact (cexp_cln z H)|exact (cln_range z)]. Qed.
Print Assumptions C35_exp_ln.
Theorem C35_ln_exp_iff : forall z : cplx R, cln (cexp z) = z <-> - PI < im z <= PI.
Proof. exact cln_cexp. Qed.
Print Assumptions C35_ln_exp_iff.

(** sin and cos never panic, satisfy the Pythagorean identity and the addition theorems, have the
    usual real and imaginary parts, and agree with the real functions on the real axis. *)
Theorem C35_sin_cos : forall z : cplx R, exists s c, csin z = Ret s /\ ccos z = Ret c /\
  cadd (cmul s s) (cmul c c) = mkC 1 0 /\ cexp (cmul (mkC 0 1) z) = cadd c (cmul (mkC 0 1) s) /\
  s = mkC (sin (re z) * cosh (im z)) (cos (re z) * sinh (im z)) /\
  c = mkC (cos (re z) * cosh (im z)) (- (sin (re z) * sinh (im z))).
Proof. exact sin_cos_facts. Qed.
Print Assumptions C35_sin_cos.

Theorem C35_addition : forall z w : cplx R, exists sz cz sw cw s c,
  csin z = Ret sz /\ ccos z = Ret cz /\ csin w = Ret sw /\ ccos w = Ret cw /\
  csin (cadd z w) = Ret s /\ ccos (cadd z w) = Ret c /\
  s = cadd (cmul sz cw) (cmul cz sw) /\ c = csub (cmul cz cw) (cmul sz sw).
Proof. exact addition_facts. Qed.
Print Assumptions C35_addition.

Theorem C35_sinh_cosh : forall z : cplx R, exists s c, csinh z = Ret s /\ ccosh z = Ret c /\
  csub (cmul c c) (cmul s s) = mkC 1 0 /\ cexp z = cadd c s /\ cexp (cneg z) = csub c s.
Proof. exact sinh_cosh_facts. Qed.
Print Assumptions C35_sinh_cosh.

(** tan = sin/cos panics exactly where cos is zero, which happens only on the real axis. *)
Theorem C35_tan : forall z : cplx R,
  (ctan z = Panic <-> ccos z = Ret (mkC 0 0)) /\ (ctan z = Panic -> im z = 0) /\
  (forall t s c, ctan z = Ret t -> csin z = Ret s -> ccos z = Ret c -> cmul t c = s).
Proof. exact tan_facts. Qed.
Print Assumptions C35_tan.
Theorem C35_sec_csc_cot : forall z : cplx R, exists s c, csin z = Ret s /\ ccos z = Ret c /\
  (csec z = Panic <-> c = mkC 0 0) /\ (forall t, csec z = Ret t -> cmul t c = mkC 1 0) /\
  (ccsc z = Panic <-> s = mkC 0 0) /\ (forall t, ccsc z = Ret t -> cmul t s = mkC 1 0) /\
  (ccot z = Panic <-> c = mkC 0 0 \/ s = mkC 0 0) /\ (forall t, ccot z = Ret t -> cmul t s = c).
Proof. exact sec_csc_facts. Qed.
Print Assumptions C35_sec_csc_cot.
(** csch has the wrong sign: it is -1/sinh. *)
Theorem C35_hyperbolic : forall z : cplx R, exists s c, csinh z = Ret s /\ ccosh z = Ret c /\
  (ctanh z = Panic <-> c = mkC 0 0) /\ (forall t, ctanh z = Ret t -> cmul t c = s) /\
  (ccoth z = Panic <-> s = mkC 0 0) /\ (forall t, ccoth z = Ret t -> cmul t s = c) /\
  (csech z = Panic <-> c = mkC 0 0) /\ (forall t, csech z = Ret t -> cmul t c = mkC 1 0) /\
  (ccsch z = Panic <-> s = mkC 0 0) /\ (forall t, ccsch z = Ret t -> cmul t s = mkC (-1) 0).
Proof. exact hyp_facts. Qed.
Print Assumptions C35_hyperbolic.
Theorem C35_csch_refuted : exists t, ccsch (mkC 1 0 : cplx R) = Ret t /\ re t < 0 /\ 0 < sinh 1.
Proof. destruct csch_at_1 as (t & E & H). exists t. split; [exact E|]. split; [exact H|]. unfold sinh. pose proof (exp_increasing (- (1)) 1). lra. Qed.
Print Assumptions C35_csch_refuted.
Example C35_tan_example : ctan (mkC (PI / 2) 0) = Panic.
Proof. apply (proj1 (C35_tan _)). rewrite ccos_ok, cosf_re, cos_PI2. reflexivity. Qed.

(** * C66: inverse functions and powers of complex numbers *)

(** The principal inverses are right inverses wherever they avoid a power of zero. *)
Theorem C66_arcsin_arccos : forall z : cplx R, z <> mkC 1 0 -> z <> mkC (-1) 0 ->
  csin (carcsin z) = Ret z /\ ccos (carccos z) = Ret z.
Proof. exact arcsin_arccos_facts. Qed.
Print Assumptions C66_arcsin_arccos.
Theorem C66_arcsec_arccsc : forall z : cplx R, z <> mkC 0 0 -> z <> mkC 1 0 -> z <> mkC (-1) 0 ->
  (exists u, carcsec z = Ret u /\ csec u = Ret z) /\ (exists u, carccsc z = Ret u /\ ccsc u = Ret z).
Proof. exact arcsec_arccsc_facts. Qed.
Print Assumptions C66_arcsec_arccsc.
Theorem C66_arctan : forall z : cplx R,
  (z <> mkC 0 1 -> z <> mkC 0 (-1) -> exists w, carctan z = Ret w /\ ctan w = Ret z) /\
  (carctan z = Panic <-> z = mkC 0 1 \/ z = mkC 0 (-1)).
Proof. exact arctan_facts. Qed.
Print Assumptions C66_arctan.
(** arccot panics at 0 although cot(pi/2) = 0. *)
Theorem C66_arccot : forall z : cplx R,
  (z <> mkC 0 0 -> z <> mkC 0 1 -> z <> mkC 0 (-1) -> exists w, carccot z = Ret w /\ ccot w = Ret z) /\
  (carccot z = Panic <-> z = mkC 0 0 \/ z = mkC 0 1 \/ z = mkC 0 (-1)).
Proof. exact arccot_facts. Qed.
Print Assumptions C66_arccot.
Theorem C66_arsinh : forall z : cplx R, z <> mkC 0 1 -> z <> mkC 0 (-1) -> csinh (carsinh z) = Ret z.
Proof. exact arsinh_facts. Qed.
Print Assumptions C66_arsinh.
Theorem C66_arcosh : forall z : cplx R, z <> mkC 1 0 -> z <> mkC (-1) 0 -> ccosh (carcosh z) = Ret z.
Proof. exact arcosh_facts. Qed.
Print Assumptions C66_arcosh.
Theorem C66_artanh_arcoth : forall z : cplx R, z <> mkC 1 0 -> z <> mkC (-1) 0 ->
  (exists u, cartanh z = Ret u /\ ctanh u = Ret z) /\ (exists u, carcoth z = Ret u /\ ccoth u = Ret z).
Proof. exact artanh_arcoth_facts. Qed.
Print Assumptions C66_artanh_arcoth.
(** arcsch is a right inverse up to the wrong sign of csch (C35). *)
Theorem C66_arsech_arcsch : forall z : cplx R, z <> mkC 0 0 ->
  (z <> mkC 1 0 -> z <> mkC (-1) 0 -> exists u, carsech z = Ret u /\ csech u = Ret z) /\
  (z <> mkC 0 1 -> z <> mkC 0 (-1) -> exists u, carcsch z = Ret u /\ ccsch u = Ret (cneg z)).
Proof. exact arsech_arcsch_facts. Qed.
Print Assumptions C66_arsech_arcsch.
Example C66_example : mkC 2 3 <> mkC 0 0 /\ mkC 2 3 <> mkC 1 0 /\ mkC 2 3 <> mkC (-1) 0 /\ mkC 2 3 <> mkC 0 1 /\ mkC 2 3 <> mkC 0 (-1).
Proof. repeat split; intro E; injection E; lra. Qed.

(** Powers of a non-zero base. *)
Theorem C66_pow : forall z : cplx R, z <> mkC 0 0 ->
  (forall w, cpow z w = cexp (cmul w (cln z))) /\
  (forall v w, cpow z (cadd v w) = cmul (cpow z v) (cpow z w)) /\
  cpow z (mkC 0 0) = mkC 1 0 /\ cpow z (mkC 1 0) = z /\ cmul (cpow z (mkC (1 / 2) 0)) (cpow z (mkC (1 / 2) 0)) = z.
Proof. exact cpow_facts. Qed.
Print Assumptions C66_pow.

(** In floating point the base zero fails: 0^(1/2) is NaN + NaN i, because the phase is computed as
    ln(0) * 0; so arcsin(1), which takes that root, fails too.  The libm facts used are hypotheses. *)
Theorem C66_pow_zero_f64_refuted : forall (pw : f64 -> f64 -> f64) (E : EOps f64),
  let half := S754_finite false 4503599627370496 (-53) in
  pw zero half = zero -> tln zero = S754_infinity true -> tcos S754_nan = S754_nan -> tsin S754_nan = S754_nan ->
  @cpow f64 F64_ops (F64_pops pw) E (mkC zero zero) (mkC half zero) = mkC S754_nan S754_nan.
Proof. exact cpow_zero_nan. Qed.
Print Assumptions C66_pow_zero_f64_refuted.
