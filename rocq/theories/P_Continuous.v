(** Property theorems C57-C60 and C70: uniform, exponential, raised cosine, normal and log-normal
    distributions.

    Reading guide (Stat_spec.v).  [is_cdf F]: F is nondecreasing with limits 0 and 1.  [is_derive],
    [is_RInt f a b v] (f has integral v over [a,b]) and [is_lim] are Coquelicot's.  [improper_integral
    f a v]: the integrals of f over [a,b] converge to v for b to infinity.  [integral_line f v],
    [integral_pos f v]: f has the integral v over the line, over the positive half-line.
    [gauss m v] is the Gaussian density with mean m and variance v, [erf_true] the error function as
    an integral.  A distribution [d] is one obtained from [new].  [Sp : Special R] are the special
    functions the generic code calls; [impl_special fuel] are the crate's own implementations. *)
From Coq Require Import Arith Lia List Bool ZArith Reals Lra Psatz SpecFloat.
From Coquelicot Require Import Coquelicot.
From Verif Require Import Outcome Scalar RealOps Elem_model Int_model Ode_model Special_model Stat_model Stat_spec Discrete_proofs Continuous_proofs Gauss_proofs Normal_proofs Special_proofs GammaTerm_proofs StatExtra_proofs StatNew_proofs DistAcc_proofs ErfInvMain_proofs.
Import ListNotations.
Local Open Scope R_scope.

(** * C57 *)
Theorem C57_new : forall a b : R, ((exists d, uniform_new a b = Ret d) <-> a < b) /\ (uniform_new a b = Panic <-> b <= a).
Proof.
  intros a b. split; [|apply uniform_new_panic]. split.
  - intros [d E]. now destruct (uniform_new_inv _ _ _ E).
  - intro H. eexists. now apply uniform_new_iff.
Qed.
Print Assumptions C57_new.
Theorem C57_cdf : forall a b d, uniform_new a b = Ret d ->
  is_cdf (uniform_cdf d) /\ (forall x, x <= a -> uniform_cdf d x = 0) /\ (forall x, b <= x -> uniform_cdf d x = 1) /\
  forall x, x <> a -> x <> b -> is_derive (uniform_cdf d) x (uniform_pdf d x).
Proof.
  intros a b d E. destruct (uniform_new_inv _ _ _ E) as [H ->].
  repeat split; try (intros; first [now apply uniform_is_cdf|now apply uniform_cdf_lo|now apply uniform_cdf_hi|now apply uniform_derive]).
  all: now apply uniform_is_cdf.
Qed.
Print Assumptions C57_cdf.
Theorem C57_quantile : forall a b d, uniform_new a b = Ret d ->
  (forall q, (exists v, uniform_quantile d q = Ret v) <-> 0 <= q <= 1) /\
  (forall q v, uniform_quantile d q = Ret v -> a <= v <= b /\ uniform_cdf d v = q) /\
  (forall x, a <= x <= b -> uniform_quantile d (uniform_cdf d x) = Ret x).
Proof.
  intros a b d E. destruct (uniform_new_inv _ _ _ E) as [H ->]. split; [|split].
  - intro q. split.
    + intros [v Ev]. destruct (Rle_dec 0 q), (Rle_dec q 1); try lra; rewrite uniform_quantile_panic in Ev by lra; discriminate.
    + intro Hq. eexists. now apply uniform_quantile_ok.
  - intros q v. now apply uniform_cdf_quantile.
  - intros x. now apply uniform_quantile_cdf.
Qed.
Print Assumptions C57_quantile.
Theorem C57_moments : forall a b d, uniform_new a b = Ret d ->
  is_RInt (uniform_pdf d) a b 1 /\ (forall x, x < a \/ b < x -> uniform_pdf d x = 0) /\
  is_RInt (fun x => x * uniform_pdf d x) a b (uniform_mean d) /\
  is_RInt (fun x => (x - uniform_mean d) ^ 2 * uniform_pdf d x) a b (uniform_variance d) /\
  is_RInt (fun x => (x - uniform_mean d) ^ 3 * uniform_pdf d x) a b (uniform_skewness d) /\
  is_RInt (fun x => - ln (uniform_pdf d x) * uniform_pdf d x) a b (uniform_entropy d) /\
  uniform_cdf d (uniform_median d) = 1 / 2.
Proof.
  intros a b d E. destruct (uniform_new_inv _ _ _ E) as [H ->].
  split; [now apply uniform_total|]. split; [intros; now apply uniform_pdf_out|]. split; [now apply uniform_mean_ok|].
  split; [now apply uniform_variance_ok|]. split; [now apply uniform_skewness_ok|]. split; [now apply uniform_entropy_ok|now apply uniform_median_ok].
Qed.
Print Assumptions C57_moments.
Example C57_example : uniform_new 1 3 = Ret (mkUniform 1 3) /\ uniform_cdf (mkUniform 1 3) 2 = 1 / 2.
Proof. split; [apply uniform_new_iff; lra|]. rewrite uniform_cdf_in; lra. Qed.

(** * C58 *)
Theorem C58_new : forall l : R, ((exists d, exponential_new l = Ret d) <-> 0 < l) /\ (exponential_new l = Panic <-> l <= 0).
Proof.
  intros l. split; [|apply exponential_new_panic]. split.
  - intros [d E]. now destruct (exponential_new_inv _ _ E).
  - intro H. eexists. now apply exponential_new_iff.
Qed.
Print Assumptions C58_new.
Theorem C58_cdf : forall l d, exponential_new l = Ret d ->
  is_cdf (exponential_cdf d) /\ (forall x, 0 <= exponential_cdf d x < 1) /\ (forall x, 0 <= exponential_pdf d x) /\
  forall x, x <> 0 -> is_derive (exponential_cdf d) x (exponential_pdf d x).
Proof.
  intros l d E. destruct (exponential_new_inv _ _ E) as [H ->].
  split; [now apply exponential_is_cdf|]. split; [intro; now apply exponential_cdf_range|].
  split; [intro; now apply exponential_pdf_nonneg|intros; now apply exponential_derive].
Qed.
Print Assumptions C58_cdf.
Theorem C58_quantile : forall l d, exponential_new l = Ret d ->
  (forall p, 0 <= p < 1 -> 0 <= exponential_quantile d p /\ exponential_cdf d (exponential_quantile d p) = p) /\
  (forall x, 0 <= x -> exponential_quantile d (exponential_cdf d x) = x) /\
  exponential_cdf d (exponential_median d) = 1 / 2.
Proof.
  intros l d E. destruct (exponential_new_inv _ _ E) as [H ->].
  split; [intros; now apply exponential_cdf_quantile|]. split; [intros; now apply exponential_quantile_cdf|now apply exponential_median_ok].
Qed.
Print Assumptions C58_quantile.
Theorem C58_memoryless : forall l d s t, exponential_new l = Ret d -> 0 <= s -> 0 <= t ->
  1 - exponential_cdf d (s + t) = (1 - exponential_cdf d s) * (1 - exponential_cdf d t).
Proof. intros l d s t E. destruct (exponential_new_inv _ _ E) as [H ->]. now apply exponential_memoryless. Qed.
Print Assumptions C58_memoryless.
(** [u] is the uniform number drawn by the generator: {u : random <= x} is [0, cdf x]. *)
Theorem C58_random : forall l d u, exponential_new l = Ret d -> 0 <= u < 1 ->
  0 <= exponential_random d u /\ forall x, 0 <= x -> (exponential_random d u <= x <-> u <= exponential_cdf d x).
Proof.
  intros l d u E Hu. destruct (exponential_new_inv _ _ E) as [H ->]. split.
  - now apply (exponential_cdf_quantile l H u).
  - intros x Hx. now apply exponential_random_law.
Qed.
Print Assumptions C58_random.
Theorem C58_moments : forall l d, exponential_new l = Ret d ->
  improper_integral (exponential_pdf d) 0 1 /\ (forall x, x < 0 -> exponential_pdf d x = 0) /\
  improper_integral (fun x => x * exponential_pdf d x) 0 (exponential_mean d) /\
  improper_integral (fun x => (x - exponential_mean d) ^ 2 * exponential_pdf d x) 0 (exponential_variance d) /\
  improper_integral (fun x => (x - exponential_mean d) ^ 3 * exponential_pdf d x) 0
    (exponential_skewness d * sqrt (exponential_variance d) ^ 3) /\
  improper_integral (fun x => - ln (exponential_pdf d x) * exponential_pdf d x) 0 (exponential_entropy d).
Proof.
  intros l d E. destruct (exponential_new_inv _ _ E) as [H ->].
  split; [now apply exponential_total|]. split; [intros; now apply exponential_pdf_neg|]. split; [now apply exponential_mean_ok|].
  split; [now apply exponential_variance_ok|]. split; [now apply exponential_skew_ok|now apply exponential_entropy_ok].
Qed.
Print Assumptions C58_moments.
(** [from_data] fits the mean; a negative sum panics. *)
Theorem C58_from_data : forall data : list R,
  (0 < sumR data -> exists d, exponential_from_data data = Ret d /\ exponential_mean d = avg data) /\
  ((1 <= length data)%nat -> sumR data < 0 -> exponential_from_data data = Panic).
Proof. intro data. split; [apply exponential_from_data_ok|apply exponential_from_data_panic]. Qed.
Print Assumptions C58_from_data.
(** In f64, [from_data] of the empty vector returns a distribution with parameter NaN. *)
Theorem C58_from_data_empty_refuted : exists d, exponential_from_data (nil : list f64) = Ret d /\ ex_l d = S754_nan.
Proof. eexists. split; [apply exponential_empty_f64|reflexivity]. Qed.
Print Assumptions C58_from_data_empty_refuted.
Example C58_example : exponential_new 2 = Ret (mkExponential 2) /\ 0 <= 1 / 2 < 1 /\ 0 < sumR [1; 2; 4].
Proof. split; [apply exponential_new_iff; lra|]. split; [lra|]. unfold sumR; cbn; lra. Qed.

(** * C59 *)
Theorem C59_new : forall mu s : R, ((exists d, raised_new mu s = Ret d) <-> 0 <= s) /\ (raised_new mu s = Panic <-> s < 0).
Proof.
  intros mu s. split; [|apply raised_new_panic]. split.
  - intros [d E]. now destruct (raised_new_inv _ _ _ E).
  - intro H. eexists. now apply raised_new_iff.
Qed.
Print Assumptions C59_new.
Theorem C59_cdf : forall mu s d, raised_new mu s = Ret d -> 0 < s ->
  is_cdf (raised_cdf d) /\ (forall x, is_derive (raised_cdf d) x (raised_pdf d x)) /\ (forall x, 0 <= raised_pdf d x) /\
  (forall x, x <= mu - s -> raised_cdf d x = 0) /\ (forall x, mu + s <= x -> raised_cdf d x = 1).
Proof.
  intros mu s d E Hs. destruct (raised_new_inv _ _ _ E) as [_ ->].
  split; [now apply raised_is_cdf|]. split; [intro; now apply raised_derive|]. split; [intro; now apply raised_pdf_nonneg|].
  split; intros; [now apply raised_cdf_lo|now apply raised_cdf_hi].
Qed.
Print Assumptions C59_cdf.
Theorem C59_symmetry : forall mu s d t, raised_new mu s = Ret d -> 0 < s ->
  raised_pdf d (mu + t) = raised_pdf d (mu - t) /\ raised_cdf d (mu + t) + raised_cdf d (mu - t) = 1 /\
  raised_cdf d (raised_median d) = 1 / 2.
Proof.
  intros mu s d t E Hs. destruct (raised_new_inv _ _ _ E) as [_ ->].
  split; [now apply raised_pdf_sym|]. split; [now apply raised_cdf_sym|now apply raised_median_ok].
Qed.
Print Assumptions C59_symmetry.
Theorem C59_moments : forall mu s d, raised_new mu s = Ret d -> 0 < s ->
  is_RInt (raised_pdf d) (mu - s) (mu + s) 1 /\
  is_RInt (fun x => x * raised_pdf d x) (mu - s) (mu + s) (raised_mean d) /\
  is_RInt (fun x => (x - raised_mean d) ^ 2 * raised_pdf d x) (mu - s) (mu + s) (raised_variance d).
Proof.
  intros mu s d E Hs. destruct (raised_new_inv _ _ _ E) as [_ ->].
  split; [now apply raised_total|]. split; [now apply raised_mean_ok|now apply raised_variance_ok].
Qed.
Print Assumptions C59_moments.
Theorem C59_skewness : forall mu s d, raised_new mu s = Ret d -> 0 < s ->
  is_RInt (fun x => (x - raised_mean d) ^ 3 * raised_pdf d x) (mu - s) (mu + s) (raised_skewness d).
Proof. intros mu s d E Hs. destruct (raised_new_inv _ _ _ E) as [_ ->]. now apply raised_third_ok. Qed.
Print Assumptions C59_skewness.
(** A zero width is accepted although the "density" is then zero everywhere. *)
Theorem C59_zero_width_refuted : exists d, raised_new 0 0 = Ret d /\ forall x, raised_pdf d x = 0.
Proof. exact raised_zero_cdf. Qed.
Print Assumptions C59_zero_width_refuted.
Example C59_example : raised_new 1 2 = Ret (mkRaised 1 2) /\ 0 < 2.
Proof. split; [apply raised_new_iff|]; lra. Qed.

(** * C60 *)
Theorem C60_new : forall m v : R, ((exists d, normal_new m v = Ret d) <-> 0 < v) /\ (normal_new m v = Panic <-> v <= 0).
Proof.
  intros m v. split; [|apply normal_new_panic]. split.
  - intros [d E]. now destruct (normal_new_inv _ _ _ E).
  - intro H. eexists. now apply normal_new_iff.
Qed.
Print Assumptions C60_new.
(** The density is right exactly for variance 1 or at the mean. *)
Theorem C60_pdf : forall m v d x, normal_new m v = Ret d -> (normal_pdf d x = gauss m v x <-> v = 1 \/ x = m).
Proof. intros m v d x E. destruct (normal_new_inv _ _ _ E) as [H ->]. now apply normal_pdf_gauss. Qed.
Print Assumptions C60_pdf.
Theorem C60_pdf_symmetry : forall m v d t, normal_new m v = Ret d ->
  normal_pdf d (m + t) = normal_pdf d (m - t) /\ 0 < normal_pdf d t.
Proof. intros m v d t E. destruct (normal_new_inv _ _ _ E) as [H ->]. split; [now apply normal_pdf_sym|now apply normal_pdf_pos]. Qed.
Print Assumptions C60_pdf_symmetry.
(** Mean, variance and skewness are those of the Gaussian density. *)
Theorem C60_moments : forall m v d, normal_new m v = Ret d ->
  integral_line (gauss m v) 1 /\ integral_line (fun x => x * gauss m v x) (normal_mean d) /\
  integral_line (fun x => (x - normal_mean d) ^ 2 * gauss m v x) (normal_variance d) /\
  integral_line (fun x => (x - normal_mean d) ^ 3 * gauss m v x) (normal_skewness d).
Proof.
  intros m v d E. destruct (normal_new_inv _ _ _ E) as [H ->].
  split; [now apply gauss_total|]. split; [now apply gauss_mean|]. split; [now apply gauss_variance|now apply gauss_third].
Qed.
Print Assumptions C60_moments.
(** The entropy is never the one of the Gaussian density, ln(2 pi e v) / 2. *)
Theorem C60_entropy_refuted : forall m v d, normal_new m v = Ret d -> normal_entropy d <> / 2 * ln (2 * PI * exp 1 * v).
Proof. intros m v d E. destruct (normal_new_inv _ _ _ E) as [H ->]. now apply normal_entropy_wrong. Qed.
Print Assumptions C60_entropy_refuted.
(** Over an exact error function, cdf is the distribution function of the Gaussian density. *)
Theorem C60_cdf : forall (Sp : Special R) m v d, (forall x, x_erf x = Ret (erf_true x)) -> normal_new m v = Ret d ->
  exists F, (forall x, normal_cdf d x = Ret (F x)) /\ is_cdf F /\ forall x, is_derive F x (gauss m v x).
Proof.
  intros Sp m v d He E. destruct (normal_new_inv _ _ _ E) as [H ->]. exists (normal_F m v).
  split; [intro x; now apply (normal_cdf_Phi He)|]. split; [now apply normal_F_is_cdf|intro x; now apply normal_F_derive].
Qed.
Print Assumptions C60_cdf.
(** The crate's own cdf returns for every argument, is 1/2 at the mean and symmetric about it. *)
Theorem C60_cdf_implementation : forall m v d, normal_new m v = Ret d ->
  (forall x, exists fuel c, normal_cdf (Sp := impl_special fuel) d x = Ret c) /\
  (forall fuel, normal_cdf (Sp := impl_special fuel) d m = Ret (1 / 2)) /\
  (forall fuel t c, normal_cdf (Sp := impl_special fuel) d (m + t) = Ret c ->
                    normal_cdf (Sp := impl_special fuel) d (m - t) = Ret (1 - c)).
Proof.
  intros m v d E. destruct (normal_new_inv _ _ _ E) as [H ->].
  split; [intro; apply normal_cdf_total_impl|]. split; [intro; apply normal_cdf_mean_impl|intros fuel t c; apply normal_cdf_sym_impl].
Qed.
Print Assumptions C60_cdf_implementation.
(** The median: half the probability lies below it, for the crate's own distribution function and the true one. *)
Theorem C60_median : forall m v d, normal_new m v = Ret d ->
  (forall fuel, normal_cdf (Sp := impl_special fuel) d (normal_median d) = Ret (1 / 2)) /\
  (forall t, gauss m v (normal_median d + t) = gauss m v (normal_median d - t)) /\ normal_quantile d (1 / 2) = Ret (normal_median d).
Proof.
  intros m v d E. destruct (normal_new_inv _ _ _ E) as [H ->]. split; [intro; apply normal_cdf_mean_impl|]. split.
  - intros t. unfold normal_median, gauss; cbn [no_mean]. do 3 f_equal. ring.
  - rewrite normal_quantile_eq by (try assumption; lra). cbn [no_mean no_var]. rewrite zq_half. unfold normal_median; cbn [no_mean]. f_equal. ring.
Qed.
Print Assumptions C60_median.
(** It agrees with the true distribution function up to 2.5e-12, and beyond sqrt 2 standard deviations up to
    5e-12 times the tail probability. *)
Theorem C60_cdf_accuracy : forall m v d fuel x c, normal_new m v = Ret d -> normal_cdf (Sp := impl_special fuel) d x = Ret c ->
  forall F, is_cdf F -> (forall y, is_derive F y (gauss m v y)) ->
  Rabs (c - F x) <= 25 / 10000000000000 /\
  (sqrt (2 * v) < Rabs (x - m) -> Rabs (c - F x) <= 5 / 1000000000000 * Rmin (F x) (1 - F x) + 2 / 10 ^ 308).
Proof.
  intros m v d fuel x c E Ec F HF DF. destruct (normal_new_inv _ _ _ E) as [H ->]. rewrite (normal_F_unique m v F H HF DF). now apply (normal_cdf_acc fuel).
Qed.
Print Assumptions C60_cdf_accuracy.
(** One standardised quantile function [z], odd about 1/2, serves all parameters; outside (0,1) a panic. *)
Theorem C60_quantile : exists z : R -> R, z (1 / 2) = 0 /\ (forall p, 0 < p < 1 -> z (1 - p) = - z p) /\
  forall m v d, normal_new m v = Ret d ->
    (forall p, 0 < p < 1 -> normal_quantile d p = Ret (m + sqrt v * z p)) /\
    (forall p, ~ 0 < p < 1 -> normal_quantile d p = Panic).
Proof.
  exists zq. split; [apply zq_half|]. split; [apply zq_sym|]. intros m v d E. destruct (normal_new_inv _ _ _ E) as [H ->].
  split; intros p Hp; [now apply normal_quantile_eq|now apply normal_quantile_panic].
Qed.
Print Assumptions C60_quantile.
(** The quantile inverts the distribution function up to 3e-10: the value at the quantile of p is p. *)
Theorem C60_quantile_accuracy : forall m v d p x, normal_new m v = Ret d -> normal_quantile d p = Ret x ->
  forall F, is_cdf F -> (forall y, is_derive F y (gauss m v y)) -> Rabs (F x - p) <= 3 / 10000000000.
Proof.
  intros m v d p x E Ex F HF DF. destruct (normal_new_inv _ _ _ E) as [H ->].
  assert (Hp : 0 < p < 1) by (destruct (Rlt_dec 0 p), (Rlt_dec p 1); try lra; rewrite normal_quantile_panic in Ex by lra; discriminate).
  rewrite normal_quantile_eq in Ex by exact Hp. injection Ex as <-. now apply normal_quantile_acc.
Qed.
Print Assumptions C60_quantile_accuracy.
Example C60_quantile_accuracy_example : exists d x F, normal_new 1 4 = Ret d /\ normal_quantile d (9 / 10) = Ret x /\
  is_cdf F /\ forall y, is_derive F y (gauss 1 4 y).
Proof.
  exists (mkNormal 1 4). eexists. exists (normal_F 1 4). split; [apply normal_new_iff; lra|]. split; [apply normal_quantile_eq; lra|].
  split; [apply normal_F_is_cdf; lra|]. intro y. apply normal_F_derive. lra.
Qed.
(** [us] are the pairs the generator draws.  Replacing every first number u by 1 - u mirrors the
    sample at the mean; a pair inside the unit circle and its swap give the two polar deviates. *)
Theorem C60_random : forall m v d us x, normal_new m v = Ret d -> normal_random d us = Some x ->
  normal_random d (map (fun u : R * R => (1 - fst u, snd u)) us) = Some (2 * m - x).
Proof. intros m v d us x E. destruct (normal_new_inv _ _ _ E) as [H ->]. apply normal_random_mirror. Qed.
Print Assumptions C60_random.
Theorem C60_random_polar : forall m v d u1 u2 us us' x y, normal_new m v = Ret d ->
  0 < (2 * u1 - 1) ^ 2 + (2 * u2 - 1) ^ 2 < 1 ->
  normal_random d ((u1, u2) :: us) = Some x -> normal_random d ((u2, u1) :: us') = Some y ->
  ((x - m) ^ 2 + (y - m) ^ 2) / v = - 2 * ln ((2 * u1 - 1) ^ 2 + (2 * u2 - 1) ^ 2).
Proof.
  intros m v d u1 u2 us us' x y E Hs Hx Hy. destruct (normal_new_inv _ _ _ E) as [H ->].
  exact (normal_random_polar u1 u2 us us' m v x y H Hs Hx Hy).
Qed.
Print Assumptions C60_random_polar.
(** In f64 the pair (1/2, 1/2) makes [random] return NaN, given ln 0 = -inf and sqrt inf = inf. *)
Theorem C60_random_nan_refuted : forall pw (E : EOps f64) (m v : f64) us, tln (zero : f64) = S754_infinity true ->
  pw (S754_infinity false) (@half f64 (F64_pops pw)) = S754_infinity false ->
  @normal_random f64 F64_ops (F64_pops pw) E (mkNormal m v) ((lit 1 2, lit 1 2) :: us) = Some S754_nan.
Proof. exact normal_random_nan. Qed.
Print Assumptions C60_random_nan_refuted.
Example C60_example : normal_new 1 4 = Ret (mkNormal 1 4) /\ ~ (4 = 1 \/ 2 = 1) /\
  (exists Sp : Special R, forall x, x_erf x = Ret (erf_true x)) /\
  (exists F, is_cdf F /\ forall y, is_derive F y (gauss 1 4 y)) /\
  0 < (2 * (3 / 4) - 1) ^ 2 + (2 * (1 / 4) - 1) ^ 2 < 1.
Proof. split; [apply normal_new_iff; lra|]. split; [lra|]. split; [now exists erf_special|].
  split; [exists (normal_F 1 4); split; [apply normal_F_is_cdf|intro; apply normal_F_derive]; lra|]. cbn; lra. Qed.

(** * C70 *)
Theorem C70_new : forall m v : R, ((exists d, log_normal_new m v = Ret d) <-> 0 < v) /\ (log_normal_new m v = Panic <-> v <= 0).
Proof.
  intros m v. split; [|apply log_normal_new_panic]. split.
  - intros [d E]. now destruct (log_normal_new_inv _ _ _ E).
  - intro H. eexists. now apply log_normal_new_iff.
Qed.
Print Assumptions C70_new.
(** The density is that of exp(X), X Gaussian; total mass, mean, variance and skewness. *)
Theorem C70_pdf : forall m v d, log_normal_new m v = Ret d ->
  (forall x, 0 < x -> log_normal_pdf d x = gauss m v (ln x) / x) /\ (forall x, x < 0 -> log_normal_pdf d x = 0) /\
  integral_pos (log_normal_pdf d) 1.
Proof.
  intros m v d E. destruct (log_normal_new_inv _ _ _ E) as [H ->].
  split; [intros; now apply log_normal_pdf_gauss|]. split; [intros; now apply log_normal_pdf_neg|now apply log_normal_total].
Qed.
Print Assumptions C70_pdf.
Theorem C70_moments : forall m v d, log_normal_new m v = Ret d ->
  integral_pos (fun x => x * log_normal_pdf d x) (log_normal_mean d) /\
  integral_pos (fun x => (x - log_normal_mean d) ^ 2 * log_normal_pdf d x) (log_normal_variance d) /\
  integral_pos (fun x => (x - log_normal_mean d) ^ 3 * log_normal_pdf d x)
    (log_normal_skewness d * sqrt (log_normal_variance d) ^ 3).
Proof.
  intros m v d E. destruct (log_normal_new_inv _ _ _ E) as [H ->].
  split; [now apply log_normal_mean_ok|]. split; [now apply log_normal_variance_ok|now apply log_normal_skew_ok].
Qed.
Print Assumptions C70_moments.
(** The entropy is the differential entropy measured in bits. *)
Theorem C70_entropy : forall m v d, log_normal_new m v = Ret d ->
  integral_pos (fun x => - ln (log_normal_pdf d x) * log_normal_pdf d x) (log_normal_entropy d * ln 2).
Proof. intros m v d E. destruct (log_normal_new_inv _ _ _ E) as [H ->]. now apply log_normal_entropy_ok. Qed.
Print Assumptions C70_entropy.
Theorem C70_cdf : forall (Sp : Special R) m v d, (forall x, x_erf x = Ret (erf_true x)) -> log_normal_new m v = Ret d ->
  exists F, is_cdf F /\ (forall x, is_derive F x (gauss m v x)) /\
    (forall x, 0 < x -> log_normal_cdf d x = Ret (F (ln x))) /\ (forall x, x <= 0 -> log_normal_cdf d x = Ret 0).
Proof.
  intros Sp m v d He E. destruct (log_normal_new_inv _ _ _ E) as [H ->]. exists (normal_F m v).
  split; [now apply normal_F_is_cdf|]. split; [intro; now apply normal_F_derive|].
  split; intros; [now apply (log_normal_cdf_Phi He)|now apply log_normal_cdf_neg].
Qed.
Print Assumptions C70_cdf.
Theorem C70_cdf_accuracy : forall m v d fuel x c, log_normal_new m v = Ret d -> 0 < x -> log_normal_cdf (Sp := impl_special fuel) d x = Ret c ->
  forall F, is_cdf F -> (forall y, is_derive F y (gauss m v y)) -> Rabs (c - F (ln x)) <= 25 / 10000000000000.
Proof.
  intros m v d fuel x c E Hx Ec F HF DF. destruct (log_normal_new_inv _ _ _ E) as [H ->]. rewrite (normal_F_unique m v F H HF DF). now apply (log_normal_cdf_acc fuel).
Qed.
Print Assumptions C70_cdf_accuracy.
(** The median is the 1/2-quantile and, for the crate's own error function, has cdf 1/2; quantiles
    at p and 1 - p multiply to the squared median. *)
Theorem C70_median : forall m v d, log_normal_new m v = Ret d ->
  log_normal_quantile d (1 / 2) = Ret (log_normal_median d) /\
  (forall fuel, log_normal_cdf (Sp := impl_special fuel) d (log_normal_median d) = Ret (1 / 2)) /\
  (forall p a b, 0 < p < 1 -> log_normal_quantile d p = Ret a -> log_normal_quantile d (1 - p) = Ret b ->
     0 < a /\ a * b = log_normal_median d * log_normal_median d) /\
  (forall p, ~ 0 < p < 1 -> log_normal_quantile d p = Panic).
Proof.
  intros m v d E. destruct (log_normal_new_inv _ _ _ E) as [H ->].
  split; [now apply log_normal_quantile_half|]. split; [intro; apply log_normal_cdf_median_impl|]. split.
  - intros p a b Hp Ha Hb. destruct (log_normal_quantile_sym m v p a b Hp Ha Hb) as [Hm Hpos]. split; [exact Hpos|].
    rewrite Hm. unfold log_normal_median; cbn. rewrite <- exp_plus. f_equal. ring.
  - intros. now apply log_normal_quantile_panic.
Qed.
Print Assumptions C70_median.
(** The quantile inverts the distribution function of the logarithm up to 3e-10. *)
Theorem C70_quantile_accuracy : forall m v d p x, log_normal_new m v = Ret d -> log_normal_quantile d p = Ret x ->
  forall F, is_cdf F -> (forall y, is_derive F y (gauss m v y)) -> 0 < x /\ Rabs (F (ln x) - p) <= 3 / 10000000000.
Proof.
  intros m v d p x E Ex F HF DF. destruct (log_normal_new_inv _ _ _ E) as [H ->].
  assert (Hp : 0 < p < 1) by (destruct (Rlt_dec 0 p), (Rlt_dec p 1); try lra; rewrite log_normal_quantile_panic in Ex by lra; discriminate).
  rewrite log_normal_quantile_eq in Ex by exact Hp. injection Ex as <-. split; [apply exp_pos|]. rewrite ln_exp. now apply normal_quantile_acc.
Qed.
Print Assumptions C70_quantile_accuracy.
(** At x = 0 the f64 density is NaN (0/0), given the libm values named in the hypotheses. *)
Theorem C70_pdf_zero_nan_refuted : forall pw (E : EOps f64) w e, tln (zero : f64) = S754_infinity true ->
  texp (S754_infinity true) = (zero : f64) ->
  pw (S754_infinity true) (@two f64 (F64_pops pw)) = S754_infinity false ->
  pw (mul (@two f64 (F64_pops pw)) tpi) (@half f64 (F64_pops pw)) = S754_finite false w e ->
  @log_normal_pdf f64 F64_ops (F64_pops pw) E (mkLogNormal zero one) zero = S754_nan.
Proof. exact log_normal_pdf_zero_nan. Qed.
Print Assumptions C70_pdf_zero_nan_refuted.
Example C70_example : log_normal_new 0 1 = Ret (mkLogNormal 0 1) /\ (exists Sp : Special R, forall x, x_erf x = Ret (erf_true x)).
Proof. split; [apply log_normal_new_iff; lra|now exists erf_special]. Qed.
