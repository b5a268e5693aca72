(** Specification vocabulary for the normal, log-normal and raised cosine densities in binary64. *)
From Coq Require Import ZArith Reals.
From Flocq Require Import Core.
From Verif Require Import Scalar Ode_model F64_spec F64Cplx_spec.
Local Open Scope R_scope.

(** A power function that squares numbers up to 2^500 in modulus with a relative error of at most [a] units roundoff, up to underflow. *)
Definition pow_square (a : R) (pw : f64 -> f64 -> f64) : Prop := forall x, fgood x -> Rabs (fval x) <= bpow radix2 500 ->
  fgood (pw x (lit 2 1)) /\ Rabs (fval (pw x (lit 2 1)) - fval x * fval x) <= a * uro * (fval x * fval x) + eta64.
(** The function the crate's normal distribution evaluates: a Gaussian in (x - mu)/v, where the density with variance v has ((x - mu)^2/v). *)
Definition coded_gauss (mu v x : R) : R := / sqrt (2 * PI * v) * exp (- ((x - mu) / v * ((x - mu) / v) / 2)).
(** The density of the log-normal distribution. *)
Definition log_gauss (mu s2 x : R) : R := / (x * sqrt (2 * PI * s2)) * exp (- ((ln x - mu) * (ln x - mu) / 2 / s2)).
(** The density of the raised cosine distribution inside its support. *)
Definition raised_density (mu s x : R) : R := (1 + cos (PI * (x - mu) / s)) / (2 * s).
