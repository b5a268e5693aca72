(** C101: complex arithmetic in binary64. *)
From Coq Require Import Arith Lia List Bool ZArith Reals Lra SpecFloat.
From Flocq Require Import Core.
From Verif Require Import Outcome Scalar RealOps Elem_model Complex_model F64_spec F64Cplx_spec F64QR_spec
  F64Err_proofs F64Cplx_proofs F64Libm_proofs F64QREx_proofs F64CplxEx_proofs.
Local Open Scope R_scope.

(** Negation and conjugation are exact; the modulus of the error of a finite sum or difference is at most u times the modulus of the exact result. *)
Theorem C101_neg_conj : forall z, cgood z -> cgood (cneg z) /\ cval (cneg z) = cneg (cval z) /\ cgood (cconj z) /\ cval (cconj z) = cconj (cval z).
Proof. exact cneg_f64. Qed.
Print Assumptions C101_neg_conj.
Theorem C101_add : forall z w, cgood z -> cgood w -> cgood (cadd z w) ->
  cmod (csub (cval (cadd z w)) (cadd (cval z) (cval w))) <= uro * cmod (cadd (cval z) (cval w)).
Proof. exact cadd_f64. Qed.
Print Assumptions C101_add.
Theorem C101_sub : forall z w, cgood z -> cgood w -> cgood (csub z w) ->
  cmod (csub (cval (csub z w)) (csub (cval z) (cval w))) <= uro * cmod (csub (cval z) (cval w)).
Proof. exact csub_f64. Qed.
Print Assumptions C101_sub.
(** A finite product is accurate in modulus: 3 units roundoff, and an underflow term. *)
Theorem C101_mul : forall z w, cgood z -> cgood w -> cgood (cmul z w) ->
  cmod (csub (cval (cmul z w)) (cmul (cval z) (cval w))) <= 3 * uro * (cmod (cval z) * cmod (cval w)) + 5 * eta64.
Proof. exact cmul_f64. Qed.
Print Assumptions C101_mul.
(** ... but not component by component: (1 + 2^-30 + i) (1 - 2^-30 + i) has real part -2^-60 and the computed real part is zero. *)
Theorem C101_mul_componentwise_refuted : exists z w, cgood z /\ cgood w /\ cgood (cmul z w) /\ re (cmul (cval z) (cval w)) <> 0 /\ fval (re (cmul z w)) = 0.
Proof. exists cancel_z, cancel_w. exact cancel_ok. Qed.
Print Assumptions C101_mul_componentwise_refuted.
(** Within the stated ranges division neither panics nor overflows and is accurate in modulus. *)
Theorem C101_div : forall z w, cgood z -> cgood w -> cbelow (bpow radix2 500) z -> cbelow (bpow radix2 510) w -> cabove (bpow radix2 (-500)) w ->
  exists q e, cdiv z w = Ret q /\ cgood q /\ cdiv (cval z) (cval w) = Ret e /\
    cmod (csub (cval q) e) <= 8 * uro * (cmod (cval z) / cmod (cval w)) + 5 * eta64 / (cmod (cval w) * cmod (cval w)) + 2 * eta64.
Proof. exact cdiv_f64. Qed.
Print Assumptions C101_div.
(** Outside: 1 / 2^600 = 0 and 2^600 / 2^600 = NaN. *)
Theorem C101_div_overflow_refuted : exists w : cplx f64, cgood w /\ re (cval w) = bpow radix2 600 /\ im (cval w) = 0 /\
  cdiv (mkC one zero) w = Ret czero /\ cdiv w w = Ret (mkC S754_nan zero).
Proof. exists (mkC two600 zero). exact div_overflow. Qed.
Print Assumptions C101_div_overflow_refuted.
(** The modulus, with a square root that is accurate to k units roundoff. *)
Theorem C101_abs : forall pw (E : EOps f64) k z, sqrt_good k (fun x => pw x (@half f64 (F64_pops pw))) -> gam (k + 16) <= / 100 ->
  (forall x, fvalid x -> ffin (pw x (@half f64 (F64_pops pw))) = true -> 0 <= fval (pw x (@half f64 (F64_pops pw)))) ->
  cgood z -> cbelow (bpow radix2 510) z -> cabove (bpow radix2 (-500)) z ->
  let r := @cabs f64 F64_ops (F64_pops pw) z in cgood r /\ fval (im r) = 0 /\ 0 < fval (re r) /\
  Rabs (fval (re r) - cmod (cval z)) <= (gam k + 4 * uro) * fval (re r).
Proof. exact cabs_f64. Qed.
Print Assumptions C101_abs.
(** Outside: the modulus of 2^600 is infinite. *)
Theorem C101_abs_overflow_refuted : forall pw, pw (S754_infinity false) (@half f64 (F64_pops pw)) = S754_infinity false ->
  exists z, cgood z /\ cmod (cval z) = bpow radix2 600 /\ @cabs f64 F64_ops (F64_pops pw) z = mkC (S754_infinity false) zero.
Proof. exact abs_overflow. Qed.
Print Assumptions C101_abs_overflow_refuted.
(** The exponential, with exp accurate to a units roundoff and sin and cos to b. *)
Theorem C101_exp : forall (E : EOps f64) a b z, 0 <= a <= 1000000 -> 0 <= b <= 1000000 -> exp_acc a texp -> trig_acc b tcos cos -> trig_acc b tsin sin ->
  cgood z -> Rabs (fval (re z)) <= 700 ->
  cgood (cexp z) /\ cmod (csub (cval (cexp z)) (cexp (cval z))) <= 2 * (a + b + 1) * uro * exp (fval (re z)) + 2 * eta64.
Proof. exact cexp_f64. Qed.
Print Assumptions C101_exp.
(** Correctly rounded functions meet the hypotheses, and 3 + 4i lies in the ranges. *)
Example C101_example : exp_acc 2 (@texp f64 exact_eops) /\ trig_acc 2 (@tcos f64 exact_eops) cos /\ trig_acc 2 (@tsin f64 exact_eops) sin /\
  sqrt_good 2 (fun x => ieee_pow x (@half f64 (F64_pops ieee_pow))) /\
  (forall x, fvalid x -> ffin (ieee_pow x (@half f64 (F64_pops ieee_pow))) = true -> 0 <= fval (ieee_pow x (@half f64 (F64_pops ieee_pow)))) /\
  cgood c34 /\ cval c34 = mkC 3 4 /\ cgood (cmul c34 c34) /\ cgood (cadd c34 c34) /\ cgood (csub c34 c34) /\
  cbelow (bpow radix2 500) c34 /\ cbelow (bpow radix2 510) c34 /\ cabove (bpow radix2 (-500)) c34 /\ Rabs (fval (re c34)) <= 700.
Proof.
  split; [exact exp_acc_ex|]. split; [exact (trig_acc_ex cos cos_le_1)|]. split; [exact (trig_acc_ex sin sin_le_1)|]. split; [exact sqrt_good_ieee|]. split; [exact ieee_pow_pos|exact c34_ok].
Qed.
