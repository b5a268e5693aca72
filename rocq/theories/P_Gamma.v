(** Property theorems C62 and C71-C74: gamma, chi-square, beta and Student t distributions.

    Reading guide (Stat_spec.v).  [euler_gamma z g]: g is the integral Gamma(z); [euler_beta p q b]: b is
    the integral B(p,q); [is_gamma_lr a F]: F is the regularised lower incomplete gamma function P(a, .).
    [integral_pos f v], [integral_01 f v], [integral_line f v]: f has the integral v over the positive
    half-line, over (0,1), over the line.  [Sp : Special R] are the special functions the generic code
    calls; hypotheses on [Sp] say which of them are taken to be exact.  [impl_special fuel] are the
    crate's own implementations.  A distribution [d] is one obtained from [new]. *)
From Coq Require Import Arith Lia List Bool ZArith Reals Lra Psatz.
From Coquelicot Require Import Coquelicot.
From Verif Require Import Outcome Scalar RealOps Int_model Ode_model Special_model Stat_model Stat_spec Discrete_proofs OdeOrder_proofs Continuous_proofs Normal_proofs Special_proofs GammaFun_proofs GammaDist_proofs StatExtra_proofs StatNew_proofs Special_spec Soper_proofs TDist_proofs DistAcc_proofs Stirling_proofs GammaAll_proofs BetaAcc_proofs TMoments_proofs TCdf_proofs.
Local Open Scope R_scope.

(** * C71: the gamma distribution *)
Theorem C71_new : forall a b : R, ((exists d, gammad_new a b = Ret d) <-> 0 < a /\ 0 < b) /\ (gammad_new a b = Panic <-> a <= 0 \/ b <= 0).
Proof.
  intros a b. split; [|apply gammad_new_panic]. split.
  - intros [d E]. now destruct (gammad_new_inv _ _ _ E).
  - intro H. eexists. now apply gammad_new_iff.
Qed.
Print Assumptions C71_new.
(** The density is positive, has total mass one, and mean, variance and skewness are the ones reported. *)
Theorem C71_moments : forall (Sp : Special R) a b g d, gammad_new a b = Ret d -> x_gamma a = Ret g -> euler_gamma a g ->
  exists p, (forall x, 0 < x -> gammad_pdf d x = Ret (p x) /\ 0 < p x) /\
  integral_pos p 1 /\
  integral_pos (fun x => x * p x) (gammad_mean d) /\
  integral_pos (fun x => (x - gammad_mean d) ^ 2 * p x) (gammad_variance d) /\
  integral_pos (fun x => (x - gammad_mean d) ^ 3 * p x) (gammad_skewness d * sqrt (gammad_variance d) ^ 3).
Proof.
  intros Sp a b g d E Eg Hg. destruct (gammad_new_inv _ _ _ E) as [[Ha Hb] ->]. pose proof (euler_gamma_pos _ _ Hg) as G.
  exists (gpdf a b g). split; [intros x Hx; split; [now apply gammad_pdf_eq|now apply gpdf_pos]|].
  split; [now apply gpdf_total|]. split; [now apply gpdf_m1|].
  split; [rewrite gammad_variance_eq; now apply gpdf_var|rewrite gammad_skew_val by assumption; now apply gpdf_skew].
Qed.
Print Assumptions C71_moments.
(** Outside the open half-line the density panics. *)
Theorem C71_pdf_panics : forall (Sp : Special R) (d : @gamma_d R) x, x <= 0 -> gammad_pdf d x = Panic.
Proof. intros Sp d x. apply gammad_pdf_panic. Qed.
Print Assumptions C71_pdf_panics.
(** The distribution function starts at 0, increases strictly to 1, and its derivative is the density. *)
Theorem C71_cdf : forall (Sp : Special R) a b g F d, gammad_new a b = Ret d -> x_gamma a = Ret g -> euler_gamma a g ->
  is_gamma_lr a F -> (forall y, 0 < y -> x_gamma_lr a y = Ret (F y)) ->
  exists C p, gammad_cdf d 0 = Ret 0 /\ (forall x, 0 < x -> gammad_cdf d x = Ret (C x) /\ gammad_pdf d x = Ret (p x)) /\
  (forall x, 0 < x -> is_derive C x (p x) /\ 0 < C x < 1) /\ (forall x y, 0 < x -> x < y -> C x < C y) /\
  filterlim C (at_right 0) (locally 0) /\ is_lim C p_infty 1.
Proof.
  intros Sp a b g F d E Eg Hg [g' HF] Lr. destruct (gammad_new_inv _ _ _ E) as [[Ha Hb] ->].
  pose proof (euler_gamma_unique _ _ _ (glr_gamma _ _ _ HF) Hg) as ->. pose proof (euler_gamma_pos _ _ Hg) as G.
  destruct (glr_scale_lims _ b _ _ Hb HF) as [L0 L1].
  assert (D : forall x, 0 < x -> is_derive (fun x => F (b * x)) x (gpdf a b g x)) by (intros; now apply gpdf_cdf).
  assert (P : forall x, 0 < x -> 0 < gpdf a b g x) by (intros; now apply gpdf_pos).
  exists (fun x => F (b * x)), (gpdf a b g). split; [apply gammad_cdf_0|].
  split; [intros x Hx; split; [now apply gammad_cdf_eq|now apply gammad_pdf_eq]|].
  split; [intros x Hx; split; [now apply D|exact (limits_range _ _ D P L0 L1 x Hx)]|].
  split; [exact (incr_pos _ _ D P)|now split].
Qed.
Print Assumptions C71_cdf.
(** With the crate's own special functions: the density to 6e-12, the distribution function to the
    accuracy of the incomplete gamma function. *)
Theorem C71_pdf_accuracy : forall a b d g fuel x, gammad_new a b = Ret d -> 0 < x -> euler_gamma a g ->
  exists p, gammad_pdf (Sp := impl_special fuel) d x = Ret p /\
    let t := Rpower b a / g * Rpower x (a - 1) * exp (- (b * x)) in Rabs (p - t) <= 6 / 1000000000000 * t.
Proof. intros a b d g fuel x E Hx Hg. destruct (gammad_new_inv _ _ _ E) as [[Ha Hb] ->]. rewrite <- gpdf_textbook by (assumption || exact (euler_gamma_pos _ _ Hg)). now apply gammad_pdf_acc. Qed.
Print Assumptions C71_pdf_accuracy.
Theorem C71_cdf_accuracy : forall a b d P fuel x c, gammad_new a b = Ret d -> 0 < x -> is_gamma_lr a P ->
  gammad_cdf (Sp := impl_special fuel) d x = Ret c ->
  Rabs (c - P (b * x)) <= 13 / 100000000000000 * Rmax 0 (1 - c) + 11 / 10000000000000000 * Rmax 1 (Rmin a (b * x)) * Rmax 0 c
    + (1 + 3 / Rmax a (b * x)) / 10 ^ 308.
Proof. intros a b d P fuel x c E Hx HP Ec. destruct (gammad_new_inv _ _ _ E) as [[Ha Hb] ->]. now apply (gammad_cdf_acc fuel). Qed.
Print Assumptions C71_cdf_accuracy.
Example C71_example : gammad_new 2 3 = Ret (mkGammaD 2 3) /\
  exists (Sp : Special R) g F, x_gamma 2 = Ret g /\ euler_gamma 2 g /\ is_gamma_lr 2 F /\ (forall y, 0 < y -> x_gamma_lr 2 y = Ret (F y)).
Proof.
  split; [apply gammad_new_iff; lra|]. pose proof (half_glr 4 ltac:(lia)) as H.
  replace (INR 4 / 2) with 2 in H by (cbn; lra).
  assert (I : half_index 2 = 4%nat) by (replace 2 with (INR 4 / 2) by (cbn; lra); apply half_index_ok).
  exists exact_special, (gam_half_int 4), (lr_half_int 4). cbn [x_gamma x_gamma_lr exact_special]. rewrite I.
  repeat split; [exact (glr_gamma _ _ _ H)|exact (glr_is _ _ _ H)].
Qed.

(** * C72: the chi-square distribution *)
Theorem C72_new : forall n : nat, ((exists d, chi_new n = Ret (d : @chi_square R)) <-> (1 <= n)%nat) /\ (@chi_new R _ _ 0 = Panic).
Proof.
  intro n. split; [|exact chi_new_0]. split.
  - intros [d E]. now destruct (chi_new_inv _ _ E).
  - intro H. eexists. now apply chi_new_iff.
Qed.
Print Assumptions C72_new.
(** For every number of degrees of freedom a u32 can hold. *)
Theorem C72_law : forall (Sp : Special R),
  (forall n, (1 <= n)%nat -> exists g, x_gamma (INR n / 2) = Ret g /\ euler_gamma (INR n / 2) g) ->
  (forall x, x_erf x = Ret (erf_true x)) ->
  forall n d, chi_new n = Ret d -> (Z.of_nat n <= 2 ^ 32 - 1)%Z ->
  exists C p, (forall x, 0 < x -> chi_pdf d x = Ret (p x) /\ chi_cdf d x = Ret (C x) /\ 0 < p x) /\
  chi_cdf d 0 = Ret 0 /\ (forall x, x < 0 -> chi_pdf d x = Ret 0) /\
  (forall x, 0 < x -> is_derive C x (p x) /\ 0 < C x < 1) /\ (forall x y, 0 < x -> x < y -> C x < C y) /\
  filterlim C (at_right 0) (locally 0) /\ is_lim C p_infty 1 /\
  integral_pos p 1 /\
  integral_pos (fun x => x * p x) (chi_mean d) /\
  integral_pos (fun x => (x - chi_mean d) ^ 2 * p x) (chi_variance d) /\
  integral_pos (fun x => (x - chi_mean d) ^ 3 * p x) (chi_skewness d * sqrt (chi_variance d) ^ 3).
Proof.
  intros Sp Hg He n d E Hn. destruct (chi_new_inv _ _ E) as [H1 ->].
  destruct (chi_law Hg He n H1 Hn) as (F & g & Eg & HF & Hc & Hd). pose proof (euler_gamma_pos _ _ Eg) as G.
  assert (N : 0 < INR n) by (apply lt_0_INR; lia). assert (N2 : 0 < INR n / 2) by lra. assert (Hb : 0 < 1 / 2) by lra.
  destruct (glr_scale_lims _ (1 / 2) _ _ Hb HF) as [L0 L1].
  assert (D : forall x, 0 < x -> is_derive (fun x => F (1 / 2 * x)) x (gpdf (INR n / 2) (1 / 2) g x)) by (intros; now apply gpdf_cdf).
  assert (P : forall x, 0 < x -> 0 < gpdf (INR n / 2) (1 / 2) g x) by (intros; now apply gpdf_pos).
  assert (M : chi_mean (mkChi (INR n)) = INR n / 2 / (1 / 2)) by (unfold chi_mean; cbn [cs_k]; field).
  assert (V : chi_variance (mkChi (INR n)) = INR n / 2 / (1 / 2 * (1 / 2))) by (unfold chi_variance; cbn [cs_k]; rewrite lit_R; rops; field).
  exists (fun x => F (1 / 2 * x)), (gpdf (INR n / 2) (1 / 2) g). split; [intros x Hx; auto|].
  split; [now apply chi_cdf_zero|]. split; [intros; now apply chi_pdf_neg|].
  split; [intros x Hx; split; [now apply D|exact (limits_range _ _ D P L0 L1 x Hx)]|]. split; [exact (incr_pos _ _ D P)|].
  split; [assumption|]. split; [assumption|]. split; [now apply gpdf_total|].
  split; [rewrite M; now apply gpdf_m1|]. split; [rewrite M, V; now apply gpdf_var|].
  rewrite chi_skew_val, M by assumption. replace (8 * INR n) with (2 * (INR n / 2) / (1 / 2 * (1 / 2) * (1 / 2))) by field. now apply gpdf_skew.
Qed.
Print Assumptions C72_law.
(** With the crate's own gamma and error functions. *)
Theorem C72_pdf_accuracy : forall n d g fuel x, chi_new n = Ret d -> 0 < x -> euler_gamma (INR n / 2) g ->
  exists p, chi_pdf (Sp := impl_special fuel) d x = Ret p /\
    let t := Rpower (1 / 2) (INR n / 2) / g * Rpower x (INR n / 2 - 1) * exp (- (1 / 2 * x)) in Rabs (p - t) <= 6 / 1000000000000 * t.
Proof.
  intros n d g fuel x E Hx Hg. destruct (chi_new_inv _ _ E) as [H1 ->]. rewrite <- gpdf_textbook by (assumption || exact (euler_gamma_pos _ _ Hg) || lra). now apply chi_pdf_acc.
Qed.
Print Assumptions C72_pdf_accuracy.
Theorem C72_cdf_accuracy : forall n d P x, chi_new n = Ret d -> (Z.of_nat n <= 2 ^ 32 - 1)%Z -> 0 < x -> is_gamma_lr (INR n / 2) P ->
  exists N c, (forall fuel, (N <= fuel)%nat -> chi_cdf (Sp := impl_special fuel) d x = Ret c) /\
  Rabs (c - P (x / 2)) <= 11 / 1000000000000 /\
  (2 < x -> Rabs (c - P (x / 2)) <= 6 / 1000000000000 * (1 - P (x / 2)) + 4 / 10 ^ 308).
Proof. intros n d P x E Hn Hx HP. destruct (chi_new_inv _ _ E) as [H1 ->]. now apply chi_cdf_acc. Qed.
Print Assumptions C72_cdf_accuracy.
(** ChiSquare(n) has the density of Gamma(n/2, 1/2), whatever gamma function is plugged in. *)
Theorem C72_is_gamma : forall (Sp : Special R) n d e g x, chi_new n = Ret d -> gammad_new (INR n / 2) (1 / 2) = Ret e ->
  x_gamma (INR n / 2) = Ret g -> 0 < g -> 0 < x -> chi_pdf d x = gammad_pdf e x.
Proof.
  intros Sp n d e g x E E' Eg G Hx. destruct (chi_new_inv _ _ E) as [H1 ->]. destruct (gammad_new_inv _ _ _ E') as [_ ->].
  apply (chi_gamma_pdf Sp (INR n) g x); auto. apply lt_0_INR; lia.
Qed.
Print Assumptions C72_is_gamma.
(** The quantile of ChiSquare(2), computed by the crate's own inverse, inverts its distribution
    function 1 - exp (-x/2). *)
Theorem C72_quantile_two : forall fuel p d F, 0 <= p < 1 -> chi_new 2 = Ret d -> is_gamma_lr 1 F ->
  exists x, chi_quantile (Sp := impl_special fuel) d p = Ret x /\ 0 <= x /\ (0 < x -> F (x / 2) = p) /\ 1 - exp (- (x / 2)) = p.
Proof.
  intros fuel p d F Hp E HF. destruct (chi_new_inv _ _ E) as [_ ->]. replace (INR 2) with 2 by (cbn; lra).
  exists (- 2 * ln (1 - p)). split; [apply chi2_quantile_impl; lra|].
  assert (K : 1 - exp (- (- 2 * ln (1 - p) / 2)) = p) by (replace (- (- 2 * ln (1 - p) / 2)) with (ln (1 - p)) by field; rewrite exp_ln; lra).
  split; [|split; [|exact K]].
  - assert (ln (1 - p) <= 0) by (rewrite <- ln_1; destruct (Req_dec p 0) as [->|]; [right; f_equal; ring|left; apply ln_increasing; lra]). lra.
  - intro Hx. rewrite (is_gamma_lr_unique 1 F (fun y => 1 - exp (- y)) HF (glr_is _ _ _ glr_1)) by lra. exact K.
Qed.
Print Assumptions C72_quantile_two.
(** The reported median is only an approximation: at ChiSquare(2) the true distribution function
    exceeds one half there. *)
Theorem C72_median_refuted : forall d F, chi_new 2 = Ret d -> is_gamma_lr 1 F -> 0 < chi_median d /\ 1 / 2 < F (chi_median d / 2).
Proof.
  intros d F E HF. destruct (chi_new_inv _ _ E) as [_ ->]. replace (INR 2) with 2 by (cbn; lra).
  assert (M : 0 < chi_median (mkChi 2)) by (unfold chi_median; cbn [cs_k]; rewrite lit_R; rops; lra). split; [exact M|].
  rewrite (is_gamma_lr_unique 1 F (chiE 0) HF (glr_is _ _ _ (chiE_glr 0))) by lra. exact chi2_median_wrong.
Qed.
Print Assumptions C72_median_refuted.
(** The entropy is that of Gamma(2/n, 1/2) - the quotient n/2 is taken the wrong way round. *)
Theorem C72_entropy_refuted : forall (Sp : Special R) n d e g, chi_new n = Ret d -> gammad_new (2 / INR n) (1 / 2) = Ret e ->
  x_gamma (2 / INR n) = Ret g -> 0 < g -> chi_entropy d = gammad_entropy e.
Proof.
  intros Sp n d e g E E' Eg G. destruct (chi_new_inv _ _ E) as [H1 ->]. destruct (gammad_new_inv _ _ _ E') as [_ ->].
  apply (chi_entropy_gamma Sp (INR n) g); auto. apply lt_0_INR; lia.
Qed.
Print Assumptions C72_entropy_refuted.
Example C72_example : chi_new 5 = Ret (mkChi (INR 5)) /\
  exists Sp : Special R, (forall n, (1 <= n)%nat -> exists g, x_gamma (INR n / 2) = Ret g /\ euler_gamma (INR n / 2) g) /\
    (forall x, x_erf x = Ret (erf_true x)).
Proof. split; [apply chi_new_iff; lia|]. exists exact_special. split; [apply exact_gamma|reflexivity]. Qed.

(** * C73: the beta distribution *)
Theorem C73_new : forall p q : R, ((exists d, beta_new p q = Ret d) <-> 0 <= p /\ 0 < q) /\ (beta_new p q = Panic <-> p < 0 \/ q <= 0).
Proof.
  intros p q. split; [|apply beta_new_panic]. split.
  - intros [d E]. now destruct (beta_new_inv _ _ _ E).
  - intro H. eexists. now apply beta_new_iff.
Qed.
Print Assumptions C73_new.
Theorem C73_moments : forall (Sp : Special R) p q b d, 0 < p -> beta_new p q = Ret d -> x_beta p q = Ret b -> euler_beta p q b ->
  exists f, (forall x, 0 < x < 1 -> beta_pdf d x = Ret (f x) /\ 0 < f x) /\
  integral_01 f 1 /\
  integral_01 (fun x => x * f x) (beta_mean d) /\
  integral_01 (fun x => (x - beta_mean d) ^ 2 * f x) (beta_variance d) /\
  integral_01 (fun x => (x - beta_mean d) ^ 3 * f x) (beta_skewness d * sqrt (beta_variance d) ^ 3).
Proof.
  intros Sp p q b d Hp E Eb Hb. destruct (beta_new_inv _ _ _ E) as [[_ Hq] ->]. pose proof (euler_beta_pos _ _ _ Hb) as B.
  exists (bpdf p q b). split.
  - intros x Hx. split; [now apply beta_pdf_eq|]. unfold bpdf. apply Rdiv_lt_0_compat; [apply Rmult_lt_0_compat; apply exp_pos|assumption].
  - split; [now apply bpdf_total|]. split; [now apply bpdf_m1|]. split; [rewrite beta_variance_eq; now apply bpdf_var|now apply beta_skew_ok].
Qed.
Print Assumptions C73_moments.
Theorem C73_support : forall (Sp : Special R) (d : @beta_d R) x, x < 0 -> beta_pdf d x = Panic.
Proof. intros Sp d x. apply beta_pdf_below. Qed.
Print Assumptions C73_support.
(** With the crate's own functions: the distribution function terminates and is the integral of the crate's own
    density up to a relative error of 1e-15 max(x/(1-x), q-1), for x at most the mean ... *)
Theorem C73_cdf_low : forall p q (d : @beta_d R) x, 0 < p -> beta_new p q = Ret d -> p + q <= 1073741823 -> 0 < x < 1 -> x <= beta_mean d ->
  exists k v f F, (forall fuel, (k <= fuel)%nat -> beta_cdf (Sp := impl_special fuel) d x = Ret v) /\
  (forall fuel t, 0 < t < 1 -> beta_pdf (Sp := impl_special fuel) d t = Ret (f t) /\ 0 < f t) /\
  (forall t, 0 < t < 1 -> is_derive F t (f t)) /\ filterlim F (at_right 0) (locally 0) /\
  Rabs (v - F x) <= 1 / 1000000000000000 * Rmax (x / (1 - x)) (q - 1) * v.
Proof. exact beta_cdf_low. Qed.
Print Assumptions C73_cdf_low.
(** ... and its complement is the integral of the density over the upper end for larger x. *)
Theorem C73_cdf_high : forall p q (d : @beta_d R) x, 0 < p -> beta_new p q = Ret d -> p + q <= 1073741823 -> 0 < x < 1 -> beta_mean d < x ->
  exists k v f G, (forall fuel, (k <= fuel)%nat -> beta_cdf (Sp := impl_special fuel) d x = Ret v) /\
  (forall fuel t, 0 < t < 1 -> beta_pdf (Sp := impl_special fuel) d t = Ret (f t) /\ 0 < f t) /\
  (forall t, 0 < t < 1 -> is_derive G t (- f t)) /\ filterlim G (at_left 1) (locally 0) /\
  Rabs ((1 - v) - G x) <= 1 / 1000000000000000 * Rmax ((1 - x) / x) (p - 1) * (1 - v).
Proof. exact beta_cdf_high. Qed.
Print Assumptions C73_cdf_high.
(** With the crate's own beta function the density is within 1.7e-11 (relative) of the true beta density ... *)
Theorem C73_pdf_accuracy : forall fuel p q b (d : @beta_d R) x, 0 < p -> beta_new p q = Ret d -> 0 < x < 1 -> euler_beta p q b ->
  exists v, beta_pdf (Sp := impl_special fuel) d x = Ret v /\
  Rabs (v - Rpower x (p - 1) * Rpower (1 - x) (q - 1) / b) <= 17 / 1000000000000 * (Rpower x (p - 1) * Rpower (1 - x) (q - 1) / b).
Proof. exact beta_pdf_acc. Qed.
Print Assumptions C73_pdf_accuracy.
(** ... and the distribution function is close to the true one, F x / b. *)
Theorem C73_cdf_accuracy : forall p q b (d : @beta_d R) F x, 0 < p -> beta_new p q = Ret d -> p + q <= 1073741823 -> 0 < x < 1 -> euler_beta p q b -> incomplete_beta p q F ->
  exists k v, (forall fuel, (k <= fuel)%nat -> beta_cdf (Sp := impl_special fuel) d x = Ret v) /\
  (x <= beta_mean d -> Rabs (v - F x / b) <= 1 / 1000000000000000 * Rmax (x / (1 - x)) (q - 1) * v + 17 / 1000000000000 * (F x / b)) /\
  (beta_mean d < x -> Rabs (v - F x / b) <= 1 / 1000000000000000 * Rmax ((1 - x) / x) (p - 1) * (1 - v) + 17 / 1000000000000 * (1 - F x / b)).
Proof.
  intros p q b d F x Hp E Hs Hx Hb HF. destruct (Rle_lt_dec x (beta_mean d)) as [L|L].
  - destruct (beta_cdf_acc_low p q b d F x Hp E Hs Hx L Hb HF) as (k & v & K & A). exists k, v. split; [exact K|]. split; [intro; exact A|intro; lra].
  - destruct (beta_cdf_acc_high p q b d F x Hp E Hs Hx L Hb HF) as (k & v & K & A). exists k, v. split; [exact K|]. split; [intro; lra|intro; exact A].
Qed.
Print Assumptions C73_cdf_accuracy.
Theorem C73_cdf_ends : forall p q (d : @beta_d R), 0 < p -> beta_new p q = Ret d -> forall fuel,
  beta_cdf (Sp := impl_special fuel) d 0 = Ret 0 /\ beta_cdf (Sp := impl_special fuel) d 1 = Ret 1 /\
  forall x, x < 0 \/ 1 < x -> beta_cdf (Sp := impl_special fuel) d x = Panic.
Proof. exact beta_cdf_ends. Qed.
Print Assumptions C73_cdf_ends.
Example C73_cdf_example : 0 < 2 /\ beta_new 2 1 = Ret (mkBeta 2 1) /\ 2 + 1 <= 1073741823 /\ 1 / 2 <= beta_mean (mkBeta 2 1) /\ beta_mean (mkBeta 2 1) < 3 / 4.
Proof. split; [lra|]. split; [apply beta_new_iff; lra|]. unfold beta_mean; cbn [be_p be_q]. rops. lra. Qed.
Example C73_example : beta_new 2 1 = Ret (mkBeta 2 1) /\
  exists (Sp : Special R) b, x_beta 2 1 = Ret b /\ euler_beta 2 1 b.
Proof.
  split; [apply beta_new_iff; lra|]. exists exact_special, (1 / (1 + 1) * 1). split.
  - cbn [x_beta exact_special]. destruct (Req_EM_T 1 1); [f_equal; lra|lra].
  - replace 2 with (1 + 1) at 1 by ring. apply euler_beta_S; [lra|lra|]. exact euler_beta_11.
Qed.

(** * C74: Student's t distribution *)
Theorem C74_new : forall n : R, (exists d, td_new n = Ret d) <-> 0 <= n.
Proof.
  intro n. split.
  - intros [d E]. now destruct (td_new_inv _ _ E).
  - intro H. eexists. now apply td_new_iff.
Qed.
Print Assumptions C74_new.
(** Density even, distribution function F(-x) = 1 - F(x), F(0) = 1/2, whatever special functions are used. *)
Theorem C74_symmetry : forall (Sp : Special R) (d : @t_d R), (forall x, td_pdf d (- x) = td_pdf d x) /\
  (forall x c, td_cdf d x = Ret c -> td_cdf d (- x) = Ret (1 - c)) /\
  (forall c, td_cdf d (td_median d) = Ret c -> c = 1 / 2).
Proof.
  intros Sp d. split; [intro; apply td_pdf_sym|]. split; [intros x c; apply td_cdf_sym|intros c; apply td_cdf_0].
Qed.
Print Assumptions C74_symmetry.
(** With Gauss's function exact on the negative half-line the distribution function is 1/2 at 0, has the density as
    its derivative everywhere, and increases strictly. *)
Theorem C74_cdf : forall (Sp : Special R) n d g1 g2, 0 < n -> td_new n = Ret d ->
  (forall z, z <= 0 -> x_f21 (1 / 2) ((n + 1) / 2) (3 / 2) z = Ret (f21_half ((n + 1) / 2) z)) ->
  x_gamma ((n + 1) / 2) = Ret g1 -> x_gamma (n / 2) = Ret g2 -> 0 < g1 -> 0 < g2 ->
  exists F p, (forall x, td_cdf d x = Ret (F x)) /\ (forall x, td_pdf d x = Ret (p x) /\ 0 < p x) /\
  F 0 = 1 / 2 /\ (forall x, is_derive F x (p x)) /\ (forall x y, x < y -> F x < F y).
Proof. intros Sp n d g1 g2. exact (td_cdf_full n d g1 g2). Qed.
Print Assumptions C74_cdf.
Example C74_cdf_example : exists Sp : Special R, (forall k z, x_f21 (1 / 2) k (3 / 2) z = Ret (f21_half k z)) /\
  forall n, (1 <= n)%nat -> exists g, x_gamma (INR n / 2) = Ret g /\ 0 < g.
Proof.
  exists {| x_gamma := x_gamma (Special := exact_special); x_digamma := fun _ => Panic; x_gamma_lr := fun _ _ => Panic; x_gamma_ur := fun _ _ => Panic;
    x_gamma_ur_inv := fun _ _ => Panic; x_erf := fun _ => Panic; x_beta := fun _ _ => Panic; x_beta_inc_reg := fun _ _ _ => Panic;
    x_f21 := fun _ k _ z => Ret (f21_half k z) |}.
  split; [reflexivity|]. intros n Hn. destruct (exact_gamma n Hn) as (g & E & H). exists g. split; [exact E|exact (euler_gamma_pos _ _ H)].
Qed.
(** With exact gamma functions the density has mass one, the reported mean, variance and (zero) skewness are its
    moments, ... *)
Theorem C74_moments : forall (Sp : Special R) n d g1 g2, 0 < n -> td_new n = Ret d -> x_gamma ((n + 1) / 2) = Ret g1 -> x_gamma (n / 2) = Ret g2 ->
  euler_gamma ((n + 1) / 2) g1 -> euler_gamma (n / 2) g2 ->
  exists p, (forall x, td_pdf d x = Ret (p x) /\ 0 < p x) /\ integral_line p 1 /\
  (forall m, td_mean d = Ret m -> integral_line (fun x => x * p x) m) /\
  (forall inf m s, td_mean d = Ret m -> 2 < n -> td_variance inf d = Ret s -> integral_line (fun x => (x - m) ^ 2 * p x) s) /\
  (forall inf m v s, td_mean d = Ret m -> td_variance inf d = Ret v -> td_skewness d = Ret s -> integral_line (fun x => (x - m) ^ 3 * p x) (s * sqrt v ^ 3)).
Proof. exact td_moments. Qed.
Print Assumptions C74_moments.
(** ... and where a moment function panics (or, for the variance, answers infinity) the integral does not exist. *)
Theorem C74_no_moments : forall (Sp : Special R) n d g1 g2, 0 < n -> td_new n = Ret d -> x_gamma ((n + 1) / 2) = Ret g1 -> x_gamma (n / 2) = Ret g2 -> 0 < g1 -> 0 < g2 ->
  exists p, (forall x, td_pdf d x = Ret (p x)) /\
  (td_mean d = Panic -> ~ exists v, integral_line (fun x => x * p x) v) /\
  (n <= 2 -> ~ exists v, integral_line (fun x => x ^ 2 * p x) v) /\
  (td_skewness d = Panic -> ~ exists v, integral_line (fun x => x ^ 3 * p x) v).
Proof. exact td_no_moments. Qed.
Print Assumptions C74_no_moments.
(** With Gauss's function exact as well the distribution function increases from 0 to 1. *)
Theorem C74_is_cdf : forall (Sp : Special R) n d g1 g2, 0 < n -> td_new n = Ret d ->
  (forall z, z <= 0 -> x_f21 (1 / 2) ((n + 1) / 2) (3 / 2) z = Ret (f21_half ((n + 1) / 2) z)) ->
  x_gamma ((n + 1) / 2) = Ret g1 -> x_gamma (n / 2) = Ret g2 -> euler_gamma ((n + 1) / 2) g1 -> euler_gamma (n / 2) g2 ->
  exists F, (forall x, td_cdf d x = Ret (F x)) /\ is_cdf F.
Proof. exact td_cdf_law. Qed.
Print Assumptions C74_is_cdf.
(** With the crate's own gamma function the density is within 1.2e-11 (relative) of the textbook density. *)
Theorem C74_pdf_accuracy : forall fuel n (d : @t_d R) g1 g2 x, 0 < n -> td_new n = Ret d -> euler_gamma ((n + 1) / 2) g1 -> euler_gamma (n / 2) g2 ->
  exists v, td_pdf (Sp := impl_special fuel) d x = Ret v /\
  Rabs (v - g1 / (sqrt (n * PI) * g2) * Rpower (1 + x * x / n) (- ((n + 1) / 2))) <= 12 / 1000000000000 * (g1 / (sqrt (n * PI) * g2) * Rpower (1 + x * x / n) (- ((n + 1) / 2))).
Proof. exact td_pdf_acc. Qed.
Print Assumptions C74_pdf_accuracy.
(** With the crate's own gamma and hypergeometric functions the distribution function terminates and is within 3e-11
    of the true one: for x^2 > n unless n is an even integer, and for x^2 <= n if (n-2) x^2 < 6 (n + x^2), which
    holds whenever x^2 <= 6 or n < 14. *)
Theorem C74_cdf_accuracy : forall n (d : @t_d R) g1 g2 x, 0 < n -> td_new n = Ret d -> euler_gamma ((n + 1) / 2) g1 -> euler_gamma (n / 2) g2 ->
  (x * x <= n -> (n - 2) * (x * x) < 6 * (n + x * x)) -> (n < x * x -> forall j, n <> 2 * INR (S j)) ->
  exists k v, (forall fuel, (k <= fuel)%nat -> td_cdf (Sp := impl_special fuel) d x = Ret v) /\
  Rabs (v - (1 / 2 + RInt (fun t => g1 / (sqrt (n * PI) * g2) * Rpower (1 + t * t / n) (- ((n + 1) / 2))) 0 x)) <= 3 / 100000000000.
Proof. exact td_cdf_acc. Qed.
Print Assumptions C74_cdf_accuracy.
Example C74_accuracy_example : (exists d, td_new 3 = Ret d) /\ (exists g1 g2, euler_gamma ((3 + 1) / 2) g1 /\ euler_gamma (3 / 2) g2) /\
  (forall x, x * x <= 3 -> (3 - 2) * (x * x) < 6 * (3 + x * x)) /\ (forall j, 3 <> 2 * INR (S j)).
Proof.
  split; [eexists; apply td_new_iff; lra|]. split; [|split; [intros; nra|]].
  - destruct (gamma_exists ((3 + 1) / 2)) as [g1 H1]; [lra|]. destruct (gamma_exists (3 / 2)) as [g2 H2]; [lra|]. now exists g1, g2.
  - intros j E. rewrite S_INR in E. destruct j as [|j]; [cbn in E; lra|]. rewrite S_INR in E. pose proof (pos_INR j). lra.
Qed.
(** With one degree of freedom the density is Cauchy's, of total mass one. *)
Theorem C74_cauchy : forall (Sp : Special R) d, td_new 1 = Ret d -> x_gamma 1 = Ret 1 -> x_gamma (1 / 2) = Ret (sqrt PI) ->
  exists p, (forall x, td_pdf d x = Ret (p x) /\ p x = / (PI * (1 + x * x))) /\ integral_line p 1.
Proof.
  intros Sp d E G1 G2. destruct (td_new_inv _ _ E) as [_ ->]. exists (fun x => / (PI * (1 + x * x))).
  split; [intro x; split; [now apply td_cauchy|reflexivity]|exact cauchy_total].
Qed.
Print Assumptions C74_cauchy.
(** Mean 0 for n > 1, variance n/(n-2) for n > 2 and infinite on (1,2], skewness 0 for n > 3; they panic
    exactly where the moment does not exist. *)
Theorem C74_moments_domain : forall (inf n : R) d, td_new n = Ret d ->
  (1 < n -> td_mean d = Ret 0) /\ (n <= 1 -> td_mean d = Panic) /\
  (2 < n -> td_variance inf d = Ret (n / (n - 2))) /\ (1 < n <= 2 -> td_variance inf d = Ret inf) /\ (n <= 1 -> td_variance inf d = Panic) /\
  (3 < n -> td_skewness d = Ret 0) /\ (n <= 3 -> td_skewness d = Panic).
Proof.
  intros inf n d E. destruct (td_new_inv _ _ E) as [_ ->].
  repeat split; intro; unfold td_mean, td_variance, td_skewness; cbn [td_n]; rewrite ?lit_R; rb; rops; repeat (rcase; try lra); try reflexivity.
  f_equal. field. lra.
Qed.
Print Assumptions C74_moments_domain.
(** With the crate's own functions: zero degrees of freedom are accepted but then the density panics
    everywhere; with two degrees of freedom the distribution function panics for every x with x^2 > 2. *)
(** The entropy of T(1) is negative although the density is below 1: it is not the entropy of the density. *)
Theorem C74_entropy_refuted : forall (Sp : Special R) d e p, td_new 1 = Ret d -> x_gamma 1 = Ret 1 -> x_gamma (1 / 2) = Ret (sqrt PI) -> x_beta 1 (1 / 2) = Ret 2 ->
  td_entropy d = Ret e -> (forall x, td_pdf d x = Ret (p x)) -> ~ integral_line (fun x => - ln (p x) * p x) e.
Proof. exact td_entropy_wrong. Qed.
Print Assumptions C74_entropy_refuted.
Example C74_entropy_example : euler_gamma 1 1 /\ euler_gamma (1 / 2) (sqrt PI) /\ euler_beta 1 (1 / 2) 2.
Proof. split; [exact euler_gamma_1|]. split; [exact euler_gamma_half|]. replace 2 with (/ (1 / 2)) at 2 by field. apply euler_beta_1. lra. Qed.
Theorem C74_zero_refuted : exists d : @t_d R, td_new 0 = Ret d /\ forall fuel x, td_pdf (Sp := impl_special fuel) d x = Panic.
Proof. eexists. split; [apply td_new_iff; lra|]. intros. apply td_pdf_zero. Qed.
Print Assumptions C74_zero_refuted.
Theorem C74_cdf_two_refuted : exists d : @t_d R, td_new 2 = Ret d /\
  forall fuel x, 2 < x * x -> td_cdf (Sp := impl_special fuel) d x = Panic.
Proof. eexists. split; [apply td_new_iff; lra|]. intros. now apply td2_cdf_panic. Qed.
Print Assumptions C74_cdf_two_refuted.
Example C74_example : td_new (5 / 2) = Ret (mkT (5 / 2)) /\ exists Sp : Special R, x_gamma 1 = Ret 1 /\ x_gamma (1 / 2) = Ret (sqrt PI).
Proof.
  split; [apply td_new_iff; lra|]. exists exact_special. cbn [x_gamma exact_special].
  replace 1 with (INR 2 / 2) at 1 by (cbn; lra). replace (1 / 2) with (INR 1 / 2) by (cbn; lra). rewrite !half_index_ok. split; reflexivity.
Qed.

(** * C62: values outside the supports, and two of the special functions' companions *)
(** ChiSquare::cdf is negative at x = -2 for two degrees of freedom, with the crate's own gamma function. *)
Theorem C62_chi_cdf_refuted : exists d : @chi_square R, chi_new 2 = Ret d /\
  forall fuel, exists c, chi_cdf (Sp := impl_special fuel) d (-2) = Ret c /\ c < 0.
Proof.
  exists (mkChi (INR 2)). split; [apply chi_new_iff; lia|]. intro fuel. replace (INR 2) with 2 by (cbn; lra). apply chi2_negative_impl.
Qed.
Print Assumptions C62_chi_cdf_refuted.
(** With an exact gamma function it is negative at every negative x when the degrees of freedom are
    2 mod 4, and positive at every negative x when they are 0 mod 4. *)
Theorem C62_chi_cdf_negative_refuted : forall (Sp : Special R),
  (forall n, (1 <= n)%nat -> exists g, x_gamma (INR n / 2) = Ret g /\ euler_gamma (INR n / 2) g) ->
  forall m d x, chi_new (2 * S m) = Ret d -> (Z.of_nat (2 * S m) <= 2 ^ 32 - 1)%Z -> x < 0 ->
  exists c, chi_cdf d x = Ret c /\ if Nat.even m then c < 0 else 0 < c.
Proof.
  intros Sp Hg m d x E Hm Hx. destruct (chi_new_inv _ _ E) as [_ ->]. exists (chiE m (x / 2)).
  split; [now apply chi_cdf_even|]. apply chiE_neg. lra.
Qed.
Print Assumptions C62_chi_cdf_negative_refuted.
(** Beta::pdf answers 1, not 0, at every x > 1. *)
Theorem C62_beta_pdf_refuted : forall (Sp : Special R) (d : @beta_d R) x, 1 < x -> beta_pdf d x = Ret 1.
Proof. intros Sp d x. apply beta_pdf_above. Qed.
Print Assumptions C62_beta_pdf_refuted.
(** The inverse of the regularised lower incomplete gamma function is wrong for a = 1 at every level. *)
Theorem C62_gamma_lr_inv_refuted : forall fuel q F, 0 < q < 1 -> is_gamma_lr 1 F ->
  exists v, sgamma_lr_inv fuel 1 q = Ret (Some v) /\ ~ (0 < v /\ F v = q).
Proof. intros fuel q F Hq HF. eexists. split; [apply gamma_lr_inv_1|now apply gamma_lr_inv_wrong]. Qed.
Print Assumptions C62_gamma_lr_inv_refuted.
(** The free function ln_gamma returns Gamma(x) instead of its logarithm. *)
Theorem C62_ln_gamma_refuted : (forall x : R, free_ln_gamma x = sgamma x) /\
  exists g v, euler_gamma 1 g /\ free_ln_gamma 1 = Ret v /\ v <> ln g.
Proof. split; [reflexivity|exact free_ln_gamma_wrong]. Qed.
Print Assumptions C62_ln_gamma_refuted.
Example C62_example : is_gamma_lr 1 (fun y => 1 - exp (- y)) /\ beta_new 2 3 = Ret (mkBeta 2 3).
Proof. split; [exact (glr_is _ _ _ glr_1)|apply beta_new_iff; lra]. Qed.
