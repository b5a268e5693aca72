(** Specification vocabulary for the t statistics in binary64. *)
From Coq Require Import ZArith Reals List SpecFloat.
From Flocq Require Import Core.
From Verif Require Import Scalar F64_spec F64Stat_spec.
Local Open Scope R_scope.

(** Bounds of C103 on the errors of the computed mean and variance of the sample [x]. *)
Definition mean_error (x : list R) : R := gam (length x) * average_abs x + eta64.
Definition var_error (k : nat) (x : list R) : R :=
  gam (length x + k + 2) * unbiased_variance x + (1 + gam (length x + k + 2)) * (2 * mean_error x ^ 2) + 4 * eta64 * (1 + gam (length x)).
(** Student's statistic for the mean [mu], and Welch's for two samples. *)
Definition student_t (x : list R) (mu : R) : R := sqrt (INR (length x)) * (average x - mu) / sqrt (unbiased_variance x).
Definition welch_var (x y : list R) : R := unbiased_variance x / INR (length x) + unbiased_variance y / INR (length y).
Definition welch_stat (x y : list R) : R := (average x - average y) / sqrt (welch_var x y).
(** The pooled variance and the equal-variance statistic of two samples. *)
Definition pooled_var (x y : list R) : R :=
  (INR (length x - 1) * unbiased_variance x + INR (length y - 1) * unbiased_variance y) / INR (length x + length y - 2).
Definition pooled_scale (x y : list R) : R := sqrt (pooled_var x y) * sqrt (/ INR (length x) + / INR (length y)).
Definition pooled_stat (x y : list R) : R := (average x - average y) / pooled_scale x y.
(** A sample whose variance is far from underflow and overflow and is computed to a relative accuracy [r]; [k] is the accuracy of the square. *)
Definition sample_ok (k : nat) (r : R) (x : list R) : Prop :=
  bpow radix2 (-900) <= unbiased_variance x <= bpow radix2 900 /\ var_error k x <= r * unbiased_variance x.
