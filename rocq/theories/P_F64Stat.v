(** C103-C104: sample statistics and elementary distributions in binary64. *)
From Coq Require Import Arith Lia List Bool ZArith Reals Lra SpecFloat.
From Flocq Require Import Core IEEE754.BinarySingleNaN.
From Verif Require Import Outcome Scalar RealOps Elem_model Int_model Ode_model Special_model Stat_model F64_spec F64Stat_spec F64Cplx_spec F64Libm_proofs F64Err_proofs F64Var_proofs F64Dist_proofs F64ExpDist_proofs.
Import ListNotations.
Local Open Scope R_scope.

(** * C103: the sample variance.  [pw x 2] is Rust's [powf] with exponent two; [square_acc k]: it squares accurately. *)
Theorem C103_about : forall pw k (l : list f64) m, square_acc k (fun x => pw x (lit 2 1)) -> (2 <= length l)%nat -> (Z.of_nat (length l) <= 2 ^ 53)%Z ->
  Forall fvalid l -> fvalid m -> let V := @calc_variance f64 F64_ops (F64_pops pw) F64_zops l m in ffin V = true ->
  let S := total (map (fun x => (fval x - fval m) ^ 2) l) / INR (length l - 1) in
  Forall (fun x => ffin x = true) l /\ ffin m = true /\ Rabs (fval V - S) <= gam (length l + k + 2) * S + 4 * eta64 * (1 + gam (length l)).
Proof. exact variance_at. Qed.
Print Assumptions C103_about.
(** Fitting a normal distribution to a sample: mean and variance, against the exact ones. *)
Theorem C103_from_data : forall pw k (l : list f64) d, square_acc k (fun x => pw x (lit 2 1)) -> (Z.of_nat (length l) <= 2 ^ 53)%Z -> Forall fvalid l ->
  @normal_from_data f64 F64_ops (F64_pops pw) F64_zops l = Ret d -> ffin (no_var d) = true ->
  let x := map fval l in let n := length l in let D := gam n * average_abs x + eta64 in
  (2 <= n)%nat /\ Forall (fun x => ffin x = true) l /\ ffin (no_mean d) = true /\ 0 < fval (no_var d) /\
  Rabs (fval (no_mean d) - average x) <= D /\
  Rabs (fval (no_var d) - unbiased_variance x) <= gam (n + k + 2) * unbiased_variance x + (1 + gam (n + k + 2)) * (2 * D ^ 2) + 4 * eta64 * (1 + gam n).
Proof. exact from_data. Qed.
Print Assumptions C103_from_data.
(** A constant sample can have a non-zero variance, so it is not rejected: 0.1, 0.1, 0.1. *)
Theorem C103_constant_refuted : exists d, @normal_from_data f64 F64_ops (F64_pops (fun x _ => mul x x)) F64_zops [tenth; tenth; tenth] = Ret d /\
  ffin (no_var d) = true /\ 0 < fval (no_var d).
Proof. exact constant_sample. Qed.
Print Assumptions C103_constant_refuted.
Example C103_example : square_acc 1 (fun x => (fun a _ => mul a a) x (lit 2 1 : f64)) /\ Forall fvalid [lit 1 3; lit 2 7; lit 5 1] /\
  exists d, @normal_from_data f64 F64_ops (F64_pops (fun x _ => mul x x)) F64_zops [lit 1 3; lit 2 7; lit 5 1] = Ret d /\ ffin (no_var d) = true.
Proof.
  split; [exact square_acc_mul|]. split; [repeat constructor; vm_compute; reflexivity|]. eexists. split; vm_compute; reflexivity.
Qed.

(** * C104: the uniform distribution.  The parameters are finite, at most 2^1022 in modulus, with a < b ([interval]). *)
(** The cdf is a number between 0 and 1, accurate to about three units roundoff, ... *)
Theorem C104_uniform_cdf : forall a b x, interval a b -> fgood x -> let p := uniform_cdf (mkUniform a b) x in
  let P := Rmax 0 (Rmin 1 ((fval x - fval a) / (fval b - fval a))) in fgood p /\ 0 <= fval p <= 1 /\ Rabs (fval p - P) <= 301 / 100 * uro * P + eta64.
Proof. intros a b x (Ga & Gb & Ba & Bb & H). now apply uniform_cdf_f64. Qed.
Print Assumptions C104_uniform_cdf.
(** ... monotone in spite of rounding, and exact at the end points. *)
Theorem C104_uniform_cdf_monotone : forall a b, interval a b ->
  (forall x y, fgood x -> fgood y -> fval x <= fval y -> fval (uniform_cdf (mkUniform a b) x) <= fval (uniform_cdf (mkUniform a b) y)) /\
  fval (uniform_cdf (mkUniform a b) a) = 0 /\ fval (uniform_cdf (mkUniform a b) b) = 1.
Proof. intros a b (Ga & Gb & Ba & Bb & H). split; [now apply uniform_cdf_mono|now apply uniform_cdf_ends]. Qed.
Print Assumptions C104_uniform_cdf_monotone.
Theorem C104_uniform_pdf : forall a b x, interval a b -> bpow radix2 (-1022) <= fval b - fval a -> fgood x -> fval a <= fval x <= fval b ->
  let p := uniform_pdf (mkUniform a b) x in fgood p /\ Rabs (fval p - / (fval b - fval a)) <= 201 / 100 * uro * / (fval b - fval a) + eta64.
Proof. intros a b x (Ga & Gb & Ba & Bb & H). now apply uniform_pdf_f64. Qed.
Print Assumptions C104_uniform_pdf.
Theorem C104_uniform_quantile : forall a b q, interval a b -> fgood q -> 0 <= fval q <= 1 -> exists x, uniform_quantile (mkUniform a b) q = Ret x /\ fgood x /\
  Rabs (fval x - (fval a + fval q * (fval b - fval a))) <= 4 * uro * (Rabs (fval a) + Rabs (fval b)) + 2 * eta64.
Proof. intros a b q (Ga & Gb & Ba & Bb & H). now apply uniform_quantile_f64. Qed.
Print Assumptions C104_uniform_quantile.
(** The quantile can lie outside the support: a = -3.2, b = 8.4, q = 1. *)
Theorem C104_uniform_quantile_refuted : exists x, uniform_quantile (T := f64) (mkUniform (lit (-16) 5) (lit 42 5)) one = Ret x /\ ltb (lit 42 5) x = true.
Proof. exact uniform_quantile_out. Qed.
Print Assumptions C104_uniform_quantile_refuted.
(** On an interval longer than the largest f64 the cdf is not a number ([huge s] is plus or minus the largest f64). *)
Theorem C104_uniform_overflow_refuted : uniform_cdf (T := f64) (mkUniform (huge true) (huge false)) (huge false) = S754_nan.
Proof. exact uniform_cdf_nan. Qed.
Print Assumptions C104_uniform_overflow_refuted.
Example C104_uniform_example : interval (lit (-16) 5) (lit 42 5) /\ fgood (lit 1 7).
Proof.
  split; [|split; vm_compute; reflexivity].
  assert (B : 16 <= bpow radix2 1022) by (change 16 with (bpow radix2 4); apply bpow_le; lia).
  repeat split; try (vm_compute; reflexivity); vm_compute (lit _ _ : f64); unfold fval, SF2R, F2R; simpl; try (apply Rabs_le); lra.
Qed.

(** * C104: the exponential distribution.  [exp_acc a]: the exponential is accurate to [a] units roundoff. *)
Theorem C104_exponential_pdf : forall (E : EOps f64) a l x, 0 <= a <= 1000000 -> exp_acc a texp -> in_range l x ->
  let p := exponential_pdf (mkExponential l) x in let y := fval l * fval x in let P := fval l * exp (- y) in
  fgood p /\ Rabs (fval p - P) <= 101 / 100 * uro * (a + y + 1) * P + eta64.
Proof. intros E a l x Ra Ha (Gl & Gx & Hl & Hx & H). now apply exponential_pdf_f64. Qed.
Print Assumptions C104_exponential_pdf.
Theorem C104_exponential_cdf : forall (E : EOps f64) a l x, 0 <= a <= 1000000 -> exp_acc a texp -> in_range l x ->
  let p := exponential_cdf (mkExponential l) x in fgood p /\ Rabs (fval p - (1 - exp (- (fval l * fval x)))) <= (101 / 100 * a + 2) * uro.
Proof. intros E a l x Ra Ha (Gl & Gx & Hl & Hx & H). now apply exponential_cdf_f64. Qed.
Print Assumptions C104_exponential_cdf.
(** The bound is absolute: near 0 the cdf has no correct digit, whichever accurate exponential is used ([pm60] is 2^-60). *)
Theorem C104_exponential_cdf_refuted : forall (E : EOps f64) a, 0 <= a <= 1000000 -> exp_acc a texp ->
  let p := exponential_cdf (mkExponential one) pm60 in let P := 1 - exp (- bpow radix2 (-60)) in
  fval pm60 = bpow radix2 (-60) /\ fgood p /\ 0 < P /\ P <= Rabs (fval p - P).
Proof. intros E a Ra Ha. split; [exact pm60_val|]. exact (exponential_cdf_small E a Ra Ha). Qed.
Print Assumptions C104_exponential_cdf_refuted.
Theorem C104_exponential_quantile : forall (E : EOps f64) a l p, 0 <= a <= 1000000 -> ln_acc a tln -> fgood l -> bpow radix2 (-1000) <= fval l -> fgood p -> 0 <= fval p < 1 ->
  let q := exponential_quantile (mkExponential l) p in let L := - ln (1 - fval p) in
  fgood q /\ Rabs (fval q - L / fval l) <= uro * ((a + 2) * L + 2) / fval l + eta64.
Proof. intros E a. exact (exponential_quantile_f64 E a). Qed.
Print Assumptions C104_exponential_quantile.
(** Likewise the quantile of 2^-60 is zero. *)
Theorem C104_exponential_quantile_refuted : forall (E : EOps f64) a, ln_acc a tln ->
  fval (exponential_quantile (mkExponential one) pm60) = 0 /\ 0 < - ln (1 - fval pm60).
Proof. intros E a Ha. rewrite pm60_val. exact (exponential_quantile_small E a Ha). Qed.
Print Assumptions C104_exponential_quantile_refuted.
Example C104_exponential_example : exp_acc 2 (@texp f64 exact_eops) /\ ln_acc 1 (@tln f64 exact_eops) /\ in_range one one.
Proof.
  split; [exact exp_acc_ex|]. split; [exact ln_acc_ex|]. repeat split; rewrite ?fval_one; try lra. change 1 with (bpow radix2 0). apply bpow_le. lia.
Qed.
