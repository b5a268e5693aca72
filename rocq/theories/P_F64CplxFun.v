(** C120: complex sine, cosine, tangent, hyperbolic sine and cosine and logarithm in binary64. *)
From Coq Require Import Arith Lia List Bool ZArith Reals Lra SpecFloat.
From Flocq Require Import Core.
From Verif Require Import Outcome Scalar RealOps Elem_model Int_model Complex_model F64_spec F64Cplx_spec F64QR_spec F64CplxFun_spec F64CplxFun_proofs F64CplxQuot_proofs F64Libm_proofs.
Local Open Scope R_scope.

(** Sine and cosine, with exp accurate to a units roundoff and the real sin and cos to b, for |Im z| <= 340: no panic, and an error of
    2 (a + b + 6) units roundoff of cosh (Im z), which bounds the modulus of both functions. *)
Theorem C120_sin : forall (E : EOps f64) a b, 0 <= a <= 1000000 -> 0 <= b <= 1000000 -> exp_acc a texp -> trig_acc b tcos cos -> trig_acc b tsin sin ->
  forall z, cgood z -> Rabs (fval (im z)) <= 340 ->
  exists s, csin z = Ret s /\ cgood s /\ cmod (csub (cval s) (sin_c (cval z))) <= 2 * (a + b + 6) * uro * cosh (fval (im z)).
Proof. exact @csin_f64. Qed.
Print Assumptions C120_sin.
Theorem C120_cos : forall (E : EOps f64) a b, 0 <= a <= 1000000 -> 0 <= b <= 1000000 -> exp_acc a texp -> trig_acc b tcos cos -> trig_acc b tsin sin ->
  forall z, cgood z -> Rabs (fval (im z)) <= 340 ->
  exists s, ccos z = Ret s /\ cgood s /\ cmod (csub (cval s) (cos_c (cval z))) <= 2 * (a + b + 6) * uro * cosh (fval (im z)).
Proof. exact @ccos_f64. Qed.
Print Assumptions C120_cos.
(** Tangent: t is the exact tangent, and the bound is relative to the distance from the poles. *)
Theorem C120_tan : forall (E : EOps f64) a b, 0 <= a <= 1000000 -> 0 <= b <= 1000000 -> exp_acc a texp -> trig_acc b tcos cos -> trig_acc b tsin sin ->
  forall z t, cgood z -> Rabs (fval (im z)) <= 340 -> cmul t (cos_c (cval z)) = sin_c (cval z) ->
  4 * (a + b + 6) * uro * cosh (fval (im z)) <= cmod (cos_c (cval z)) ->
  exists q, ctan z = Ret q /\ cgood q /\ cmod (csub (cval q) t) <= 4 * (a + b + 9) * uro * (1 + cmod t) * (cosh (fval (im z)) / cmod (cos_c (cval z))).
Proof. exact @ctan_f64. Qed.
Print Assumptions C120_tan.
(** Hyperbolic sine and cosine for |Re z| <= 340. *)
Theorem C120_sinh : forall (E : EOps f64) a b, 0 <= a <= 1000000 -> 0 <= b <= 1000000 -> exp_acc a texp -> trig_acc b tcos cos -> trig_acc b tsin sin ->
  forall z, cgood z -> Rabs (fval (re z)) <= 340 ->
  exists s, csinh z = Ret s /\ cgood s /\ cmod (csub (cval s) (sinh_c (cval z))) <= 2 * (a + b + 8) * uro * cosh (fval (re z)).
Proof. exact @csinh_f64. Qed.
Print Assumptions C120_sinh.
Theorem C120_cosh : forall (E : EOps f64) a b, 0 <= a <= 1000000 -> 0 <= b <= 1000000 -> exp_acc a texp -> trig_acc b tcos cos -> trig_acc b tsin sin ->
  forall z, cgood z -> Rabs (fval (re z)) <= 340 ->
  exists s, ccosh z = Ret s /\ cgood s /\ cmod (csub (cval s) (cosh_c (cval z))) <= 2 * (a + b + 6) * uro * cosh (fval (re z)).
Proof. exact @ccosh_f64. Qed.
Print Assumptions C120_cosh.
(** The reciprocals and the hyperbolic quotients in the same form: t is the exact value. *)
Theorem C120_sec : forall (E : EOps f64) a b, 0 <= a <= 1000000 -> 0 <= b <= 1000000 -> exp_acc a texp -> trig_acc b tcos cos -> trig_acc b tsin sin ->
  forall z t, cgood z -> Rabs (fval (im z)) <= 340 -> cmul t (cos_c (cval z)) = mkC 1 0 ->
  4 * (a + b + 6) * uro * cosh (fval (im z)) <= cmod (cos_c (cval z)) ->
  exists q, csec z = Ret q /\ cgood q /\ cmod (csub (cval q) t) <= 4 * (a + b + 9) * uro * (1 + cmod t) * (cosh (fval (im z)) / cmod (cos_c (cval z))).
Proof. exact @csec_f64. Qed.
Print Assumptions C120_sec.
Theorem C120_csc : forall (E : EOps f64) a b, 0 <= a <= 1000000 -> 0 <= b <= 1000000 -> exp_acc a texp -> trig_acc b tcos cos -> trig_acc b tsin sin ->
  forall z t, cgood z -> Rabs (fval (im z)) <= 340 -> cmul t (sin_c (cval z)) = mkC 1 0 ->
  4 * (a + b + 6) * uro * cosh (fval (im z)) <= cmod (sin_c (cval z)) ->
  exists q, ccsc z = Ret q /\ cgood q /\ cmod (csub (cval q) t) <= 4 * (a + b + 9) * uro * (1 + cmod t) * (cosh (fval (im z)) / cmod (sin_c (cval z))).
Proof. exact @ccsc_f64. Qed.
Print Assumptions C120_csc.
Theorem C120_tanh : forall (E : EOps f64) a b, 0 <= a <= 1000000 -> 0 <= b <= 1000000 -> exp_acc a texp -> trig_acc b tcos cos -> trig_acc b tsin sin ->
  forall z t, cgood z -> Rabs (fval (re z)) <= 340 -> cmul t (cosh_c (cval z)) = sinh_c (cval z) ->
  4 * (a + b + 8) * uro * cosh (fval (re z)) <= cmod (cosh_c (cval z)) ->
  exists q, ctanh z = Ret q /\ cgood q /\ cmod (csub (cval q) t) <= 4 * (a + b + 11) * uro * (1 + cmod t) * (cosh (fval (re z)) / cmod (cosh_c (cval z))).
Proof. exact @ctanh_f64. Qed.
Print Assumptions C120_tanh.
Theorem C120_coth : forall (E : EOps f64) a b, 0 <= a <= 1000000 -> 0 <= b <= 1000000 -> exp_acc a texp -> trig_acc b tcos cos -> trig_acc b tsin sin ->
  forall z t, cgood z -> Rabs (fval (re z)) <= 340 -> cmul t (sinh_c (cval z)) = cosh_c (cval z) ->
  4 * (a + b + 8) * uro * cosh (fval (re z)) <= cmod (sinh_c (cval z)) ->
  exists q, ccoth z = Ret q /\ cgood q /\ cmod (csub (cval q) t) <= 4 * (a + b + 11) * uro * (1 + cmod t) * (cosh (fval (re z)) / cmod (sinh_c (cval z))).
Proof. exact @ccoth_f64. Qed.
Print Assumptions C120_coth.
Theorem C120_sech : forall (E : EOps f64) a b, 0 <= a <= 1000000 -> 0 <= b <= 1000000 -> exp_acc a texp -> trig_acc b tcos cos -> trig_acc b tsin sin ->
  forall z t, cgood z -> Rabs (fval (re z)) <= 340 -> cmul t (cosh_c (cval z)) = mkC 1 0 ->
  4 * (a + b + 6) * uro * cosh (fval (re z)) <= cmod (cosh_c (cval z)) ->
  exists q, csech z = Ret q /\ cgood q /\ cmod (csub (cval q) t) <= 4 * (a + b + 9) * uro * (1 + cmod t) * (cosh (fval (re z)) / cmod (cosh_c (cval z))).
Proof. exact @csech_f64. Qed.
Print Assumptions C120_sech.
(** cot is computed as 1 / tan; K bounds the amplification in the tangent. *)
Theorem C120_cot : forall (E : EOps f64) a b, 0 <= a <= 1000000 -> 0 <= b <= 1000000 -> exp_acc a texp -> trig_acc b tcos cos -> trig_acc b tsin sin ->
  forall z c K, cgood z -> Rabs (fval (im z)) <= 340 -> cmul c (sin_c (cval z)) = cos_c (cval z) -> 0 < cmod (sin_c (cval z)) ->
  2 * (a + b + 9) * cosh (fval (im z)) <= K * cmod (cos_c (cval z)) -> K <= 3000000 -> 4 * K * uro * (1 + cmod c) <= 1 ->
  exists q, ccot z = Ret q /\ cgood q /\ cmod (csub (cval q) c) <= 4 * (K + 3) * uro * ((1 + cmod c) * (1 + cmod c)).
Proof. exact @ccot_f64. Qed.
Print Assumptions C120_cot.
(** csch approximates -1/sinh: the wrong sign of C35_csch_refuted, in f64. *)
Theorem C120_csch : forall (E : EOps f64) a b, 0 <= a <= 1000000 -> 0 <= b <= 1000000 -> exp_acc a texp -> trig_acc b tcos cos -> trig_acc b tsin sin ->
  forall z t, cgood z -> Rabs (fval (re z)) <= 340 -> cmul t (sinh_c (cval z)) = mkC (-1) 0 ->
  4 * (a + b + 6) * uro * cosh (fval (re z)) <= cmod (sinh_c (cval z)) ->
  exists q, ccsch z = Ret q /\ cgood q /\ cmod (csub (cval q) t) <= 4 * (a + b + 9) * uro * (1 + cmod t) * (cosh (fval (re z)) / cmod (sinh_c (cval z))).
Proof. exact @ccsch_f64. Qed.
Print Assumptions C120_csch.
(** The principal logarithm away from its branch cut: absolute error of the real part a few units roundoff plus the relative error of ln, and of
    the imaginary part that of atan2. *)
Theorem C120_ln : forall pw (E : EOps f64) k a b z, sqrt_good k (fun x => pw x (@half f64 (F64_pops pw))) -> gam (k + 16) <= / 100 ->
  (forall x, fvalid x -> ffin (pw x (@half f64 (F64_pops pw))) = true -> 0 <= fval (pw x (@half f64 (F64_pops pw)))) ->
  0 <= a <= 1000000 -> ln_acc a (@tln f64 E) -> atan2_acc b (@tatan2 f64 E) ->
  cgood z -> cbelow (bpow radix2 510) z -> cabove (bpow radix2 (-500)) z -> fval (im z) <> 0 \/ 0 < fval (re z) ->
  let r := @cln f64 F64_ops (F64_pops pw) E z in cgood r /\
  Rabs (fval (re r) - re (ln_c (cval z))) <= 3 * (gam k + 4 * uro) + a * uro * Rabs (re (ln_c (cval z))) + eta64 /\
  Rabs (fval (im r) - im (ln_c (cval z))) <= b * uro.
Proof. exact cln_f64. Qed.
Print Assumptions C120_ln.
(** The specification: sin_c, cos_c, sinh_c, cosh_c and ln_c are the functions defined by the complex exponential
    (2 i sin z = e^(iz) - e^(-iz) and so on; e^(ln z) = z). *)
Theorem C120_spec : forall z : cplx R,
  cmul (mkC 0 2) (sin_c z) = csub (cexp (mkC (- im z) (re z))) (cexp (mkC (im z) (- re z))) /\
  cmul (mkC 2 0) (cos_c z) = cadd (cexp (mkC (- im z) (re z))) (cexp (mkC (im z) (- re z))) /\
  cmul (mkC 2 0) (sinh_c z) = csub (cexp z) (cexp (cneg z)) /\ cmul (mkC 2 0) (cosh_c z) = cadd (cexp z) (cexp (cneg z)) /\
  (z <> mkC 0 0 -> cexp (ln_c z) = z).
Proof. exact fun_spec. Qed.
Print Assumptions C120_spec.
(** Correctly rounded functions meet the hypotheses, and 4 i lies in the ranges, also that of the tangent (C101_example treats those of the modulus). *)
Definition ex_4i : cplx f64 := mkC zero (int_as_f64 4).
Example C120_example : exp_acc 2 (@texp f64 exact_eops) /\ trig_acc 2 (@tcos f64 exact_eops) cos /\ trig_acc 2 (@tsin f64 exact_eops) sin /\ atan2_acc 5 (@tatan2 f64 exact_eops) /\
  ln_acc 1 (@tln f64 exact_eops) /\
  cgood ex_4i /\ cval ex_4i = mkC 0 4 /\ Rabs (fval (im ex_4i)) <= 340 /\ Rabs (fval (re ex_4i)) <= 340 /\ fval (im ex_4i) <> 0 /\
  4 * (2 + 2 + 6) * uro * cosh (fval (im ex_4i)) <= cmod (cos_c (cval ex_4i)).
Proof.
  split; [exact exp_acc_ex|]. split; [exact (trig_acc_ex cos cos_le_1)|]. split; [exact (trig_acc_ex sin sin_le_1)|]. split; [exact atan2_acc_ex|]. split; [exact ln_acc_ex|exact ex_4i_ok].
Qed.
(** 4 i and 1 lie in the ranges of the quotients. *)
Example C120_quotient_example : let z : cplx f64 := mkC zero (int_as_f64 4) in let w : cplx f64 := mkC one zero in
  cgood z /\ Rabs (fval (im z)) <= 340 /\ 4 * (2 + 2 + 6) * uro * cosh (fval (im z)) <= cmod (sin_c (cval z)) /\ 4 * (2 + 2 + 6) * uro * cosh (fval (im z)) <= cmod (cos_c (cval z)) /\
  cgood w /\ Rabs (fval (re w)) <= 340 /\ 4 * (2 + 2 + 8) * uro * cosh (fval (re w)) <= cmod (sinh_c (cval w)) /\ 4 * (2 + 2 + 8) * uro * cosh (fval (re w)) <= cmod (cosh_c (cval w)).
Proof. exact quot_ranges. Qed.
(** 4 i lies in the range of cot, with K = 26. *)
Example C120_cot_example : let z : cplx f64 := mkC zero (int_as_f64 4) in let c := mkC 0 (- (cosh 4 / sinh 4)) in
  cgood z /\ Rabs (fval (im z)) <= 340 /\ cmul c (sin_c (cval z)) = cos_c (cval z) /\ 0 < cmod (sin_c (cval z)) /\ 2 * (2 + 2 + 9) * cosh (fval (im z)) <= 26 * cmod (cos_c (cval z)) /\ 4 * 26 * uro * (1 + cmod c) <= 1.
Proof. exact cot_range. Qed.
