(** Property theorems C54-C56 and C69: combinatorics and discrete distributions.

    Reading guide (Stat_spec.v).  [choose n k] is the binomial coefficient by Pascal's triangle,
    [sum_to n f] is f(0) + .. + f(n).  For a law on {0..n} with point masses [pm]: [d_mean n pm],
    [d_variance n pm] are its mean and variance, [prob_le n pm x] the probability of a value <= x.
    [bern_pm], [binomial_law], [poisson_law] are the textbook laws; [is_cdf F]: F is nondecreasing
    with limits 0 and 1.  [factorial true] is the function in a build with overflow checks,
    [factorial false] without.  A distribution [d] is always one obtained from [new]. *)
From Coq Require Import Arith Lia List Bool ZArith Reals Lra Psatz SpecFloat.
From Coquelicot Require Import Coquelicot.
From Verif Require Import Outcome Scalar RealOps Int_model Ode_model Special_model Stat_model Stat_spec Combin_proofs Discrete_proofs Continuous_proofs GammaFun_proofs GammaDist_proofs StatExtra_proofs StatNew_proofs DistAcc_proofs.
Local Open Scope R_scope.

(** * C54 *)
Theorem C54_factorial : forall n, (n <= 20)%nat -> factorial true n = Ret (Z.of_nat (fact n)).
Proof. exact factorial_ok. Qed.
Print Assumptions C54_factorial.
Theorem C54_factorial_overflow : forall n, (20 < n)%nat -> factorial true n = Panic.
Proof. exact factorial_panic. Qed.
Print Assumptions C54_factorial_overflow.
(** Without overflow checks the result is n! modulo 2^64: a wrong number from 21 on, zero from 66 on. *)
Theorem C54_factorial_unchecked : forall n,
  factorial false n = Ret (Z.of_nat (fact n) mod 2 ^ 64)%Z /\
  ((n <= 20)%nat -> factorial false n = Ret (Z.of_nat (fact n))) /\
  ((66 <= n)%nat -> factorial false n = Ret 0%Z).
Proof.
  intro n. rewrite factorial_wrap. repeat split.
  - intro H. rewrite Z.mod_small; [reflexivity|]. pose proof (fact_le_20 n H). pose proof (Zfact_pos n). lia.
  - intro H. now rewrite fact_wrap_zero.
Qed.
Print Assumptions C54_factorial_unchecked.
Theorem C54_binom : forall n k, (k <= n)%nat -> (n <= 20)%nat -> binom true n k = Ret (Z.of_nat (choose n k)).
Proof. exact binom_ok. Qed.
Print Assumptions C54_binom.
Theorem C54_binom_panics : forall n k, (n < k)%nat \/ (20 < n)%nat -> binom true n k = Panic.
Proof. intros n k [H|H]; [now apply binom_panic_k|now apply binom_panic_n]. Qed.
Print Assumptions C54_binom_panics.
(** The specification used above is the quotient of factorials. *)
Theorem C54_choose : forall n k, (k <= n)%nat -> (choose n k * (fact k * fact (n - k)) = fact n)%nat.
Proof. exact choose_fact. Qed.
Print Assumptions C54_choose.
(** For n > 20 an unchecked build returns wrong coefficients. *)
Theorem C54_binom_unchecked_refuted : exists n k v, (k <= n)%nat /\ binom false n k = Ret v /\ v <> Z.of_nat (choose n k).
Proof. exists 21%nat, 1%nat, 5%Z. repeat split; [lia|vm_compute; discriminate]. Qed.
Print Assumptions C54_binom_unchecked_refuted.
Example C54_example : (3 <= 7)%nat /\ (7 <= 20)%nat /\ binom true 7 3 = Ret 35%Z /\ (20 < 25)%nat.
Proof. repeat split; try lia. Qed.

(** * C55 *)
Theorem C55_new : forall p : R, ((exists d, bernoulli_new p = Ret d) <-> 0 <= p <= 1) /\ (bernoulli_new p = Panic <-> ~ 0 <= p <= 1).
Proof.
  intro p. split; [|apply bernoulli_new_panic]. split.
  - intros [d E]. now destruct (bernoulli_new_inv _ _ E).
  - intro H. eexists. now apply bernoulli_new_iff.
Qed.
Print Assumptions C55_new.
Theorem C55_pmf : forall (p : R) d, bernoulli_new p = Ret d ->
  (forall k, (k <= 1)%nat -> bernoulli_pmf d k = Ret (bern_pm p k)) /\
  (forall k, (1 < k)%nat -> bernoulli_pmf d k = Panic) /\ sum_to 1 (bern_pm p) = 1.
Proof.
  intros p d E. destruct (bernoulli_new_inv _ _ E) as [_ ->].
  repeat split; [apply bernoulli_pmf_ok|apply bernoulli_pmf_panic|apply bern_moments].
Qed.
Print Assumptions C55_pmf.
Theorem C55_moments : forall (p : R) d, bernoulli_new p = Ret d ->
  bernoulli_mean d = d_mean 1 (bern_pm p) /\ bernoulli_variance d = d_variance 1 (bern_pm p).
Proof.
  intros p d E. destruct (bernoulli_new_inv _ _ E) as [_ ->]. destruct (bern_moments p) as (_ & -> & ->). split; reflexivity.
Qed.
Print Assumptions C55_moments.
Theorem C55_cdf : forall (p : R) d, bernoulli_new p = Ret d ->
  is_cdf (bernoulli_cdf d) /\ forall x, x <> 0 -> bernoulli_cdf d x = prob_le 1 (bern_pm p) x.
Proof.
  intros p d E. destruct (bernoulli_new_inv _ _ E) as [H ->]. split; [now apply bernoulli_is_cdf|]. intros x Hx. now apply bernoulli_cdf_ok.
Qed.
Print Assumptions C55_cdf.
(** At x = 0 the distribution function is 0 instead of 1 - p. *)
Theorem C55_cdf_zero_refuted : forall (p : R) d, bernoulli_new p = Ret d ->
  bernoulli_cdf d 0 = 0 /\ prob_le 1 (bern_pm p) 0 = 1 - p.
Proof. intros p d E. destruct (bernoulli_new_inv _ _ E) as [_ ->]. apply bernoulli_cdf_0. Qed.
Print Assumptions C55_cdf_zero_refuted.
(** The floating-point constructors accept NaN. *)
Theorem C55_nan_refuted : (exists d, bernoulli_new (S754_nan : f64) = Ret d) /\ (exists d, poisson_new (S754_nan : f64) = Ret d) /\
  (exists d, exponential_new (S754_nan : f64) = Ret d) /\ (exists d, normal_new (zero : f64) S754_nan = Ret d) /\
  (exists d, uniform_new (zero : f64) S754_nan = Ret d).
Proof. destruct nan_accepted as (A & B & C & D & F). repeat split; eexists; eassumption. Qed.
Print Assumptions C55_nan_refuted.
Example C55_example : bernoulli_new (1 / 3) = Ret (mkBernoulli (1 / 3)) /\ 1 / 2 <> 0.
Proof. split; [apply bernoulli_new_iff|]; lra. Qed.

(** * C56 *)
Theorem C56_pmf : forall n (p : R), (n <= 20)%nat ->
  (forall k, (k <= n)%nat -> binomial_pmf (binomial_new n p) k = Ret (binomial_law n p k)) /\
  (forall k, (n < k)%nat -> binomial_pmf (binomial_new n p) k = Ret 0) /\
  sum_to n (binomial_law n p) = 1 /\ (0 <= p <= 1 -> forall k, 0 <= binomial_law n p k).
Proof.
  intros n p H. repeat split; [intros; now apply binomial_pmf_ok|intros; now apply binomial_pmf_out|apply law_sum|intros; now apply law_nonneg].
Qed.
Print Assumptions C56_pmf.
Theorem C56_moments : forall n (p : R), binomial_mean (binomial_new n p) = d_mean n (binomial_law n p) /\
  binomial_variance (binomial_new n p) = d_variance n (binomial_law n p).
Proof. intros n p. rewrite law_mean, law_variance. apply binomial_mean_eq. Qed.
Print Assumptions C56_moments.
Theorem C56_cdf : forall n (p x : R), (n <= 20)%nat -> 0 <= x < IZR (2 ^ 32 - 1) ->
  binomial_cdf (binomial_new n p) x = Ret (prob_le n (binomial_law n p) x).
Proof. exact binomial_cdf_ok. Qed.
Print Assumptions C56_cdf.
Theorem C56_cdf_law : forall n p, 0 <= p <= 1 -> is_cdf (prob_le n (binomial_law n p)).
Proof.
  intros n p H. split; [|split].
  - intros x y. apply prob_le_mono. intro k. now apply law_nonneg.
  - apply (is_lim_const_m _ 0 0). intros. now apply prob_le_neg.
  - apply (is_lim_const_p _ 1 (INR n)). intros x Hx. rewrite prob_le_all; [apply law_sum|lra].
Qed.
Print Assumptions C56_cdf_law.
(** Left of the support cdf returns P(X = 0), not 0; beyond the u32 range it overflows. *)
Theorem C56_cdf_negative_refuted : forall n (p x : R), (n <= 20)%nat -> x < 0 ->
  binomial_cdf (binomial_new n p) x = Ret (binomial_law n p 0) /\ prob_le n (binomial_law n p) x = 0.
Proof. intros n p x H Hx. split; [now apply binomial_cdf_neg|now apply prob_le_neg]. Qed.
Print Assumptions C56_cdf_negative_refuted.
Theorem C56_cdf_overflow : forall n (p x : R), IZR (2 ^ 32 - 1) <= x -> binomial_cdf (binomial_new n p) x = Panic.
Proof. exact binomial_cdf_overflow. Qed.
Print Assumptions C56_cdf_overflow.
Theorem C56_large_n : forall n (p : R) k, (20 < n)%nat -> (k <= n)%nat -> binomial_pmf (binomial_new n p) k = Panic.
Proof. exact binomial_pmf_panic. Qed.
Print Assumptions C56_large_n.
(** [new] does not check p: the "probabilities" can be negative. *)
Theorem C56_new_refuted : exists n (p v : R), binomial_pmf (binomial_new n p) 0 = Ret v /\ v < 0.
Proof. exists 1%nat, 2, (binomial_law 1 2 0). split; [apply binomial_pmf_ok; lia|]. unfold binomial_law; cbn. lra. Qed.
Print Assumptions C56_new_refuted.
Example C56_example : (4 <= 20)%nat /\ 0 <= 5 / 2 < IZR (2 ^ 32 - 1) /\ 0 <= 1 / 3 <= 1 /\ binomial_law 4 (1 / 2) 2 = 3 / 8.
Proof. split; [lia|]. split; [split; [lra|apply Rlt_trans with 3; [lra|apply IZR_lt; lia]]|]. split; [lra|]. unfold binomial_law; cbn. lra. Qed.

(** * C69 *)
Theorem C69_new : forall g : R, ((exists d, poisson_new g = Ret d) <-> 0 < g) /\ (poisson_new g = Panic <-> g <= 0).
Proof.
  intro g. split; [|apply poisson_new_panic]. split.
  - intros [d E]. now destruct (poisson_new_inv _ _ E).
  - intro H. eexists. now apply poisson_new_iff.
Qed.
Print Assumptions C69_new.
Theorem C69_pmf : forall (g : R) d, poisson_new g = Ret d ->
  (forall k, (k <= 20)%nat -> poisson_pmf d k = Ret (poisson_law g k)) /\
  (forall k, (20 < k)%nat -> poisson_pmf d k = Panic).
Proof.
  intros g d E. destruct (poisson_new_inv _ _ E) as [_ ->]. split; intros; [now apply poisson_pmf_ok|now apply poisson_pmf_panic].
Qed.
Print Assumptions C69_pmf.
Theorem C69_moments : forall (g : R) d, poisson_new g = Ret d ->
  is_series (poisson_law g) 1 /\ is_series (fun k => INR k * poisson_law g k) (poisson_mean d) /\
  is_series (fun k => (INR k - poisson_mean d) ^ 2 * poisson_law g k) (poisson_variance d).
Proof.
  intros g d E. destruct (poisson_new_inv _ _ E) as [_ ->]. repeat split; [apply poisson_total|apply poisson_mean_ok|apply poisson_variance_ok].
Qed.
Print Assumptions C69_moments.
(** If the regularised upper incomplete gamma function the trait provides is exact at (n+1, gamma),
    cdf(n) is the sum of the law up to n. *)
Theorem C69_cdf : forall (Sp : Special R) g d n F, poisson_new g = Ret d -> (Z.of_nat n < 2 ^ 32 - 1)%Z ->
  is_gamma_lr (INR (S n)) F -> x_gamma_ur (INR (S n)) g = Ret (1 - F g) ->
  poisson_cdf d n = Ret (sum_to n (poisson_law g)).
Proof. intros Sp g d n F E. destruct (poisson_new_inv _ _ E) as [H ->]. now apply poisson_cdf_ok. Qed.
Print Assumptions C69_cdf.
(** The same with the crate's own incomplete gamma function. *)
Theorem C69_cdf_accuracy : forall g d n fuel c, poisson_new g = Ret d -> (Z.of_nat n < 2 ^ 32 - 1)%Z -> poisson_cdf (Sp := impl_special fuel) d n = Ret c ->
  Rabs (c - sum_to n (poisson_law g)) <=
    13 / 100000000000000 * Rmax 0 c + 11 / 10000000000000000 * Rmax 1 (Rmin (INR (S n)) g) * Rmax 0 (1 - c) + 4 / 10 ^ 308.
Proof. intros g d n fuel c E. destruct (poisson_new_inv _ _ E) as [H ->]. now apply poisson_cdf_acc. Qed.
Print Assumptions C69_cdf_accuracy.
Theorem C69_cdf_overflow : forall (Sp : Special R) (d : @poisson R) n, (2 ^ 32 - 1 <= Z.of_nat n)%Z -> poisson_cdf d n = Panic.
Proof. intros Sp d n. apply poisson_cdf_overflow. Qed.
Print Assumptions C69_cdf_overflow.
Example C69_example : poisson_new 3 = Ret (mkPoisson 3) /\
  exists F, is_gamma_lr (INR 2) F /\ x_gamma_ur (Special := exact_special) (INR 2) 3 = Ret (1 - F 3).
Proof.
  split; [apply poisson_new_iff; lra|].
  exists (lr_half_int 4). assert (H : is_glr (INR 4 / 2) (gam_half_int 4) (lr_half_int 4)) by (apply half_glr; lia).
  replace (INR 4 / 2) with (INR 2) in H by (cbn; lra). split.
  - exact (glr_is _ _ _ H).
  - cbn [x_gamma_ur exact_special]. replace (half_index (INR 2)) with 4%nat; [reflexivity|].
    replace (INR 2) with (INR 4 / 2) by (cbn; lra). now rewrite half_index_ok.
Qed.
