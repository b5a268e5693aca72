(** C122: the t statistics in binary64.  [mean_error], [var_error]: the bounds of C103 on the computed mean and variance; [sample_ok k r x]: the variance of the
    sample is far from underflow and overflow and its relative error is at most r.  [pw] is Rust's powf, used as x^2 ([square_acc]) and as x^0.5 ([root_acc], [root_total]). *)
From Coq Require Import Arith Lia List Bool ZArith Reals Lra SpecFloat.
From Flocq Require Import Core IEEE754.BinarySingleNaN.
From Verif Require Import Outcome Scalar RealOps Elem_model Int_model Ode_model Special_model Stat_model F64_spec F64Stat_spec F64Cplx_spec F64Norm_spec F64TTest_spec F64Var_proofs F64NewtonEx_proofs F64TTest_proofs F64TTestEx_proofs.
Import ListNotations.
Local Open Scope R_scope.

(** The one-sample statistic sqrt n (mean - mu) / s. *)
Theorem C122_one_sample : forall pw k j (l : list f64) mu d t r,
  square_acc k (fun x => pw x (lit 2 1)) -> root_acc j (fun x => pw x (@half f64 (F64_pops pw))) -> root_total (fun x => pw x (@half f64 (F64_pops pw))) -> gam j <= / 1000 ->
  (Z.of_nat (length l) <= 2 ^ 53)%Z -> Forall fvalid l -> fvalid mu ->
  @normal_from_data f64 F64_ops (F64_pops pw) F64_zops l = Ret d -> ffin (no_var d) = true ->
  @t_one_sample f64 F64_ops (F64_pops pw) F64_zops l mu = Ret t -> ffin (tt_t t) = true ->
  let x := map fval l in var_error k x <= r * unbiased_variance x -> r <= / 10 ->
  let w := sqrt (unbiased_variance x) in let T := student_t x (fval mu) in
  ffin mu = true /\ 0 < w /\
  Rabs (fval (tt_t t) - T) <= 3 * (sqrt (INR (length l)) * mean_error x / w) + (2 * r + 10 * (uro + gam j)) * Rabs T + (2 / w + 1) * eta64.
Proof. exact one_sample_f64. Qed.
Print Assumptions C122_one_sample.
(** Welch's statistic; nothing is assumed about the functions that produce the p value. *)
Theorem C122_welch : forall pw k j,
  square_acc k (fun x => pw x (lit 2 1)) -> root_acc j (fun x => pw x (@half f64 (F64_pops pw))) -> root_total (fun x => pw x (@half f64 (F64_pops pw))) -> gam j <= / 1000 ->
  forall (l m : list f64) dx dy t r, (Z.of_nat (length l) <= 2 ^ 53)%Z -> (Z.of_nat (length m) <= 2 ^ 53)%Z -> Forall fvalid l -> Forall fvalid m ->
  @normal_from_data f64 F64_ops (F64_pops pw) F64_zops l = Ret dx -> ffin (no_var dx) = true -> @normal_from_data f64 F64_ops (F64_pops pw) F64_zops m = Ret dy -> ffin (no_var dy) = true ->
  forall (E : EOps f64) (Sp : Special f64), @t_unequal_variance f64 F64_ops (F64_pops pw) E F64_zops Sp l m = Ret t -> ffin (tt_t t) = true ->
  let x := map fval l in let y := map fval m in sample_ok k r x -> sample_ok k r y -> r <= / 200 ->
  let T := welch_stat x y in
  Rabs (fval (tt_t t) - T) <= 3 * ((mean_error x + mean_error y) / sqrt (welch_var x y)) + (3 * r + 10 * (uro + gam j)) * Rabs T + eta64.
Proof. exact welch_f64. Qed.
Print Assumptions C122_welch.
(** The equal-variance statistic. *)
Theorem C122_pooled : forall pw k j,
  square_acc k (fun x => pw x (lit 2 1)) -> root_acc j (fun x => pw x (@half f64 (F64_pops pw))) -> root_total (fun x => pw x (@half f64 (F64_pops pw))) -> gam j <= / 1000 ->
  forall (l m : list f64) dx dy t r, (Z.of_nat (length l + length m) <= 2 ^ 53)%Z -> Forall fvalid l -> Forall fvalid m ->
  @normal_from_data f64 F64_ops (F64_pops pw) F64_zops l = Ret dx -> ffin (no_var dx) = true -> @normal_from_data f64 F64_ops (F64_pops pw) F64_zops m = Ret dy -> ffin (no_var dy) = true ->
  @t_equal_variance f64 F64_ops (F64_pops pw) F64_zops l m = Ret t -> ffin (tt_t t) = true ->
  let x := map fval l in let y := map fval m in sample_ok k r x -> sample_ok k r y -> r <= / 200 ->
  let T := pooled_stat x y in
  Rabs (fval (tt_t t) - T) <= 3 * ((mean_error x + mean_error y) / pooled_scale x y) + (3 * r + 20 * (uro + gam j)) * Rabs T + eta64.
Proof. exact pooled_f64. Qed.
Print Assumptions C122_pooled.
(** The samples 1, 2, 3 and 4, 5, 6 with the correctly rounded square root. *)
Example C122_example :
  square_acc 1 (fun x => root_pow x (lit 2 1)) /\ root_acc 1 (fun x => root_pow x (@half f64 (F64_pops root_pow))) /\ root_total (fun x => root_pow x (@half f64 (F64_pops root_pow))) /\ gam 1 <= / 1000 /\
  Forall fvalid sample_123 /\ Forall fvalid sample_456 /\ sample_ok 1 (/ 1000000) (map fval sample_123) /\ sample_ok 1 (/ 1000000) (map fval sample_456) /\
  (exists dx dy, @normal_from_data f64 F64_ops (F64_pops root_pow) F64_zops sample_123 = Ret dx /\ @normal_from_data f64 F64_ops (F64_pops root_pow) F64_zops sample_456 = Ret dy /\ ffin (no_var dx) = true /\ ffin (no_var dy) = true) /\
  (exists t, @t_one_sample f64 F64_ops (F64_pops root_pow) F64_zops sample_123 zero = Ret t /\ ffin (tt_t t) = true) /\
  (exists t, @t_equal_variance f64 F64_ops (F64_pops root_pow) F64_zops sample_123 sample_456 = Ret t /\ ffin (tt_t t) = true) /\
  (exists t, @t_unequal_variance f64 F64_ops (F64_pops root_pow) const_elem F64_zops const_special sample_123 sample_456 = Ret t /\ ffin (tt_t t) = true).
Proof. exact ttest_example. Qed.
(** The hypothesis on the variance is needed: three times 0.1, tested against the mean 0.1, gives a statistic above 1 where the exact test panics. *)
Theorem C122_constant_refuted : exists t, @t_one_sample f64 F64_ops (F64_pops root_pow) F64_zops [tenth; tenth; tenth] tenth = Ret t /\ ffin (tt_t t) = true /\ 1 < fval (tt_t t) /\
  t_one_sample (map fval [tenth; tenth; tenth]) (fval tenth) = Panic.
Proof. exact ttest_constant. Qed.
Print Assumptions C122_constant_refuted.
