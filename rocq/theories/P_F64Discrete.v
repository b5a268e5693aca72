(** C117: the probabilities of the binomial and Poisson distributions in binary64. *)
From Coq Require Import Arith Lia List Bool ZArith Reals Lra SpecFloat.
From Flocq Require Import Core.
From Verif Require Import Outcome Scalar RealOps Elem_model Int_model Ode_model Special_model Stat_model Stat_spec F64_spec F64Cplx_spec F64Gamma_spec F64Gamma_proofs F64Libm_proofs F64GammaEx_proofs F64Discrete_proofs.
Local Open Scope R_scope.

(** Binomial distribution with n <= 20 trials and a success probability at least 2^-40 away from 0 and 1: the relative error of pmf, for every k <= n. *)
Theorem C117_binomial_pmf : forall (pw : f64 -> f64 -> f64) (E : EOps f64) a, 0 <= a <= 1000 -> libm_acc a pw E ->
  forall n (p : f64) k, (n <= 20)%nat -> (k <= n)%nat -> fgood p -> bpow radix2 (-40) <= fval p <= 1 - bpow radix2 (-40) ->
  exists v, @binomial_pmf f64 _ (F64_pops pw) _ (binomial_new n p) k = Ret v /\ fgood v /\
  Rabs (fval v - binomial_law n (fval p) k) <= (3 * a + 30) * uro * binomial_law n (fval p) k.
Proof. exact binomial_pmf_f64. Qed.
Print Assumptions C117_binomial_pmf.
(** ... and of its distribution function. *)
Theorem C117_binomial_cdf : forall (pw : f64 -> f64 -> f64) (E : EOps f64) a, 0 <= a <= 1000 -> libm_acc a pw E ->
  forall n (p x : f64), (n <= 20)%nat -> fgood p -> bpow radix2 (-40) <= fval p <= 1 - bpow radix2 (-40) -> fgood x -> 0 <= fval x < IZR (2 ^ 32 - 1) ->
  exists v, @binomial_cdf f64 _ (F64_pops pw) _ (binomial_new n p) x = Ret v /\ fgood v /\
  Rabs (fval v - prob_le n (binomial_law n (fval p)) (fval x)) <= (3 * a + 50) * uro * prob_le n (binomial_law n (fval p)) (fval x).
Proof. exact binomial_cdf_f64. Qed.
Print Assumptions C117_binomial_cdf.
(** Poisson distribution with 2^-40 <= g <= 400: the relative error of pmf for every k <= 20. *)
Theorem C117_poisson_pmf : forall (pw : f64 -> f64 -> f64) (E : EOps f64) a, 0 <= a <= 1000 -> libm_acc a pw E ->
  forall (g : f64) k d, (k <= 20)%nat -> poisson_new g = Ret d -> fgood g -> bpow radix2 (-40) <= fval g <= 400 ->
  exists v, @poisson_pmf f64 _ (F64_pops pw) E _ d k = Ret v /\ fgood v /\ Rabs (fval v - poisson_law (fval g) k) <= (3 * a + 10) * uro * poisson_law (fval g) k.
Proof.
  intros pw E a Ha HL g k d Hk Hd Hg Bg. unfold poisson_new in Hd. destruct (leb g zero); [discriminate|]. injection Hd as <-. now apply (poisson_pmf_f64 pw E a).
Qed.
Print Assumptions C117_poisson_pmf.
(** Arguments that meet the hypotheses: 20 trials with p = 1/2, at 10; a Poisson distribution with g = 1; correctly rounded functions. *)
Example C117_example : libm_acc 2 F64GammaEx_proofs.exact_pow F64Libm_proofs.exact_eops /\
  fgood (lit 1 2) /\ bpow radix2 (-40) <= fval (lit 1 2) <= 1 - bpow radix2 (-40) /\ fgood (lit 10 1) /\ 0 <= fval (lit 10 1) < IZR (2 ^ 32 - 1) /\
  poisson_new (T := f64) one = Ret (mkPoisson one) /\ fgood one /\ bpow radix2 (-40) <= fval one <= 400.
Proof.
  destruct F64GammaEx_proofs.libm_acc_ex as (A & _). split; [exact A|]. destruct F64Gamma_proofs.num12 as (G2 & E2). destruct F64Gamma_proofs.num1 as (G1 & E1).
  assert (G10 : fgood (lit 10 1) /\ fval (lit 10 1) = 10) by F64Gamma_proofs.num_tac. destruct G10 as (G10 & E10). rewrite E1, E2, E10.
  assert (B : bpow radix2 (-40) <= / 4) by (change (/ 4) with (bpow radix2 (-2)); apply bpow_le; lia).
  split; [exact G2|]. split; [lra|]. split; [exact G10|]. split; [split; [lra|apply IZR_lt; reflexivity]|]. split; [reflexivity|]. split; [exact G1|lra].
Qed.
