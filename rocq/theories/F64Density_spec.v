(** Specification vocabulary for the densities in binary64. *)
From Coq Require Import ZArith Reals.
From Flocq Require Import Core.
Local Open Scope R_scope.

(** A positive number that stays away from underflow and overflow. *)
Definition safe (r : R) : Prop := bpow radix2 (-990) <= r <= bpow radix2 1019.
(** The density of the gamma distribution with shape [al] and rate [be]; [g] is Gamma(al). *)
Definition gamma_density (al be g x : R) : R := Rpower be al / g * Rpower x (al - 1) * exp (- (be * x)).
(** The density of the chi-square distribution with [k] degrees of freedom; [g] is Gamma(k/2). *)
Definition chi_density (k g x : R) : R := / (Rpower 2 (k / 2) * g) * (Rpower x (k / 2 - 1) * exp (- (x / 2))).
(** The density of the beta distribution; [B] is B(p,q). *)
Definition beta_density (p q B x : R) : R := Rpower x (p - 1) * Rpower (1 - x) (q - 1) / B.
(** The density of Student's t distribution with [n] degrees of freedom; [g1] is Gamma((n+1)/2), [g2] is Gamma(n/2). *)
Definition t_density (n g1 g2 x : R) : R := g1 * Rpower (1 + x * x / n) (- ((n + 1) / 2)) / (sqrt (n * PI) * g2).
