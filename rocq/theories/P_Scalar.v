(** Property theorems C36-C38: integer traits, numeric conversions, scalar approximate equality.

    Reading guide.  [mkIty signed w] is an integer type of w bits; [in_ity t z]: z is a value of t;
    [is_trunc v q]: q is v rounded towards zero (Int_spec.v).  [f64] is IEEE binary64; [ffin x]: x is
    finite; [fval x]: its real value; [rnd64]: rounding to nearest even (Flocq's [round] with the
    binary64 format). *)
From Coq Require Import ZArith Reals Lra Lia Bool SpecFloat.
From Flocq Require Import Core.
From Verif Require Import Outcome Scalar Approx_model Int_model Int_spec F64Flocq Int_proofs ScalarEq_proofs.
Local Open Scope Z_scope.

(** * C36 *)
Theorem C36_sign : forall n : Z, isign n = Z.sgn n /\ (iis_positive n = true <-> 0 < n) /\ (iis_negative n = true <-> n < 0).
Proof. intros n. split; [apply isign_ok|]. unfold iis_positive, iis_negative. split; lia. Qed.
Print Assumptions C36_sign.

(** The value ranges of Rust's integer types. *)
Theorem C36_ranges : forall z : Z,
  (in_ity i8 z <-> -128 <= z <= 127) /\ (in_ity u8 z <-> 0 <= z <= 255) /\
  (in_ity i16 z <-> -32768 <= z <= 32767) /\ (in_ity u16 z <-> 0 <= z <= 65535) /\
  (in_ity i32 z <-> -2147483648 <= z <= 2147483647) /\ (in_ity u32 z <-> 0 <= z <= 4294967295) /\
  (in_ity i64 z <-> -9223372036854775808 <= z <= 9223372036854775807) /\ (in_ity u64 z <-> 0 <= z <= 18446744073709551615) /\
  (in_ity i128 z <-> -170141183460469231731687303715884105728 <= z <= 170141183460469231731687303715884105727) /\
  (in_ity u128 z <-> 0 <= z <= 340282366920938463463374607431768211455).
Proof. intros z. unfold in_ity; cbn. repeat split; intros; lia. Qed.
Print Assumptions C36_ranges.

Theorem C36_abs : forall (w : Z), 0 < w -> let t := mkIty true w in forall n, in_ity t n ->
  (n <> - 2 ^ (w - 1) -> iabs t n = Ret (Z.abs n)) /\ (n = - 2 ^ (w - 1) -> iabs t n = Panic).
Proof.
  intros w Hw t n Hn. split; intros H.
  - apply iabs_ok; [exact Hn|intros _; exact Hw|left; exact H].
  - rewrite H. exact (iabs_min t eq_refl Hw).
Qed.
Print Assumptions C36_abs.
Example C36_abs_example : iabs i8 (-128) = Panic /\ iabs i8 (-127) = Ret 127 /\ in_ity i8 (-128).
Proof. split; [reflexivity|]. split; [reflexivity|]. vm_compute. split; congruence. Qed.

Theorem C36_abs_diff_unsigned : forall (w a b eps : Z), let t := mkIty false w in in_ity t a -> in_ity t b ->
  uabs_diff_eq t a b eps = Ret (Z.abs (a - b) <=? eps).
Proof. intros w a b eps t Ha Hb. exact (uabs_diff t a b eps eq_refl Ha Hb). Qed.
Print Assumptions C36_abs_diff_unsigned.
Example C36_abs_diff_unsigned_example : uabs_diff_eq u8 0 255 254 = Ret false /\ uabs_diff_eq u8 0 255 255 = Ret true.
Proof. split; reflexivity. Qed.

(** Signed: the answer is right when the difference fits and is not MIN; otherwise it panics. *)
Theorem C36_abs_diff_signed : forall (w a b eps : Z), 0 < w -> let t := mkIty true w in
  (Z.abs (a - b) < 2 ^ (w - 1) -> iabs_diff_eq t a b eps = Ret (Z.abs (a - b) <=? eps)) /\
  (2 ^ (w - 1) <= Z.abs (a - b) -> iabs_diff_eq t a b eps = Panic).
Proof. exact iabs_diff_both. Qed.
Print Assumptions C36_abs_diff_signed.
(** So the unsigned statement is false for signed types. *)
Theorem C36_abs_diff_signed_total_refuted : in_ity i8 100 /\ in_ity i8 (-100) /\ iabs_diff_eq i8 100 (-100) 5 = Panic.
Proof. repeat split; vm_compute; congruence. Qed.
Print Assumptions C36_abs_diff_signed_total_refuted.

(** Floats: exact on the reals; in binary64 sign(NaN) is -1, and abs agrees with IEEE abs up to the
    sign of zero. *)
Theorem C36_float : forall x : R,
  (0 < x -> fsign x = 1)%R /\ (x = 0 -> fsign x = 0)%R /\ (x < 0 -> fsign x = -1)%R /\ fabs x = Rabs x.
Proof. intros x. destruct (fsign_R x) as (H1 & H2 & H3). repeat (split; [assumption|]). exact (fabs_R x). Qed.
Print Assumptions C36_float.
Theorem C36_float_nan_refuted : fsign (S754_nan : f64) = neg one /\ fis_negative (S754_nan : f64) = false.
Proof. split; reflexivity. Qed.
Print Assumptions C36_float_nan_refuted.
(** is_positive and is_negative are the signs, also for the infinities, and both are false for zeros and NaN. *)
Theorem C36_float_signs : (forall x : R, (fis_positive x = true <-> 0 < x)%R /\ (fis_negative x = true <-> x < 0)%R) /\
  (forall x : f64, (fis_positive x = true <-> x = S754_infinity false \/ exists m e, x = S754_finite false m e) /\
                   (fis_negative x = true <-> x = S754_infinity true \/ exists m e, x = S754_finite true m e)).
Proof. exact float_signs. Qed.
Print Assumptions C36_float_signs.
Theorem C36_float_abs_f64 : forall x : f64, x <> S754_nan -> eqb (fabs x) (SFabs x) = true.
Proof. exact fabs_f64. Qed.
Print Assumptions C36_float_abs_f64.

(** * C37 *)
Theorem C37_int_to_int : forall (t : ity) (z : Z), 0 < iwidth t ->
  in_ity t (as_int t z) /\ (as_int t z) mod 2 ^ iwidth t = z mod 2 ^ iwidth t /\ (as_int t z = z <-> in_ity t z).
Proof. exact as_int_ok. Qed.
Print Assumptions C37_int_to_int.
Theorem C37_default_methods : forall (t : ity) (z : Z), 0 < iwidth t <= 64 -> to_via64 t z = as_int t z.
Proof. exact to_via64_ok. Qed.
Print Assumptions C37_default_methods.
Example C37_int_example : as_int u8 (-1) = 255 /\ as_int i8 200 = -56 /\ as_int i32 (2 ^ 32 + 5) = 5.
Proof. repeat split; reflexivity. Qed.

(** Float to integer: truncate, then saturate; infinities saturate and NaN is 0. *)
Theorem C37_float_to_int : forall (t : ity) (x : f64), 0 < iwidth t -> ffin x = true ->
  exists q, is_trunc (fval x) q /\
    (in_ity t q -> float_as_int t x = q) /\ (q < imin t -> float_as_int t x = imin t) /\ (imax t < q -> float_as_int t x = imax t).
Proof. exact float_as_int_cases. Qed.
Print Assumptions C37_float_to_int.
Theorem C37_float_to_int_special : forall t : ity,
  float_as_int t (S754_infinity false) = imax t /\ float_as_int t (S754_infinity true) = imin t /\ float_as_int t S754_nan = 0.
Proof. intros t. repeat split; reflexivity. Qed.
Print Assumptions C37_float_to_int_special.
(** -2.5 as i32, 300.0 as u8, -1.5 as u8. *)
Example C37_float_example :
  float_as_int i32 (S754_finite true 5629499534213120 (-51)) = -2 /\
  float_as_int u8 (S754_finite false 5277655813324800 (-44)) = 255 /\
  float_as_int u8 (S754_finite true 6755399441055744 (-52)) = 0.
Proof. repeat split; reflexivity. Qed.

(** Integer to float: nearest even; exact up to 2^53, so converting back gives the integer again. *)
Theorem C37_int_to_float : forall z : Z, Z.abs z < 2 ^ 1023 ->
  ffin (int_as_f64 z) = true /\ fval (int_as_f64 z) = rnd64 (IZR z).
Proof. exact int_as_f64_nearest. Qed.
Print Assumptions C37_int_to_float.
Theorem C37_int_to_float_exact : forall z : Z, Z.abs z <= 2 ^ 53 -> fval (int_as_f64 z) = IZR z.
Proof. intros z H. exact (proj2 (proj2 (int_as_f64_ok z H))). Qed.
Print Assumptions C37_int_to_float_exact.
Theorem C37_roundtrip : forall (t : ity) (z : Z), 0 < iwidth t -> in_ity t z -> Z.abs z <= 2 ^ 53 ->
  float_as_int t (int_as_f64 z) = z.
Proof. exact int_float_roundtrip. Qed.
Print Assumptions C37_roundtrip.
(** Beyond 2^53 the round trip can fail. *)
Theorem C37_roundtrip_refuted : in_ity i64 (2 ^ 53 + 1) /\ float_as_int i64 (int_as_f64 (2 ^ 53 + 1)) = 2 ^ 53.
Proof. split; [split; vm_compute; congruence|vm_compute; reflexivity]. Qed.
Print Assumptions C37_roundtrip_refuted.

(** * C38 *)
Theorem C38_abs_diff_eq : forall a b eps : R, sabs_diff_eq a b eps = true <-> (Rabs (a - b) <= eps)%R.
Proof. exact sabs_R. Qed.
Print Assumptions C38_abs_diff_eq.
Theorem C38_relative_eq : forall a b eps r : R, srelative_eq a b eps r = true <->
  (a = b \/ Rabs (a - b) <= eps \/ Rabs (a - b) <= Rmax (Rabs a) (Rabs b) * r)%R.
Proof. exact srel_R. Qed.
Print Assumptions C38_relative_eq.
(** Every binary64 value, including infinities, NaN and signed zeros. *)
Theorem C38_symmetric_f64 : forall a b eps r : f64,
  sabs_diff_eq a b eps = sabs_diff_eq b a eps /\ srelative_eq a b eps r = srelative_eq b a eps r.
Proof. intros a b eps r. split; [apply sabs_sym_f64|apply srel_sym_f64]. Qed.
Print Assumptions C38_symmetric_f64.
Theorem C38_reflexive_f64 : forall a eps r : f64, srelative_eq a a eps r = true <-> a <> S754_nan.
Proof. exact srel_refl_f64. Qed.
Print Assumptions C38_reflexive_f64.
(** An infinity is relatively equal to itself only, whatever the tolerances. *)
Theorem C38_infinity_f64 : forall s (b eps r : f64), srelative_eq (S754_infinity s) b eps r = true <-> b = S754_infinity s.
Proof. exact srel_inf_f64. Qed.
Print Assumptions C38_infinity_f64.
(** abs_diff_eq is not reflexive on infinities: inf - inf is NaN. *)
Theorem C38_abs_diff_reflexive_refuted : forall eps : f64, sabs_diff_eq (S754_infinity false) (S754_infinity false) eps = false.
Proof. reflexivity. Qed.
Print Assumptions C38_abs_diff_reflexive_refuted.
Example C38_example : (srelative_eq 1000 1001 (1 / 2) (1 / 100))%R = true /\ (srelative_eq 1000 1001 (1 / 2) (1 / 10000))%R = false.
Proof.
  split; [apply C38_relative_eq; right; right; rewrite Rabs_left, Rmax_right; rewrite ?Rabs_pos_eq; lra|].
  apply Bool.not_true_is_false. rewrite C38_relative_eq. rewrite Rabs_left, Rmax_right; rewrite ?Rabs_pos_eq; lra.
Qed.
