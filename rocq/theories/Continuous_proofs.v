(** Uniform, exponential and raised cosine distributions over exact reals. *)
From Coq Require Import Arith Lia List Bool ZArith Reals Lra.
From Coquelicot Require Import Coquelicot.
From Verif Require Import Outcome Scalar RealOps Elem_model Int_model Ode_model Special_model Stat_model.
From Verif Require Import Stat_spec Discrete_proofs OdeOrder_proofs.
Local Open Scope R_scope.

(** ** Calculus helpers *)

Lemma FTC (F f : R -> R) a b :
  (forall x, is_derive F x (f x)) -> (forall x, continuous f x) ->
  is_RInt f a b (F b - F a).
Proof.
  intros D C. apply (is_RInt_derive F f a b); intros; [apply D|apply C].
Qed.

Lemma is_RInt_ext_closed (f g : R -> R) a b l : a <= b ->
  (forall x, a < x < b -> f x = g x) -> is_RInt f a b l -> is_RInt g a b l.
Proof.
  intros Hab H. apply is_RInt_ext. rewrite Rmin_left, Rmax_right by assumption. exact H.
Qed.

Lemma is_lim_const_p (f : R -> R) c M : (forall x, M < x -> f x = c) -> is_lim f p_infty c.
Proof.
  intros H. apply (is_lim_ext_loc (fun _ => c)).
  - exists M. intros x Hx. symmetry. apply H. assumption.
  - apply is_lim_const.
Qed.
Lemma is_lim_const_m (f : R -> R) c M : (forall x, x < M -> f x = c) -> is_lim f m_infty c.
Proof.
  intros H. apply (is_lim_ext_loc (fun _ => c)).
  - exists M. intros x Hx. symmetry. apply H. assumption.
  - apply is_lim_const.
Qed.

Lemma is_derive_loc (f g : R -> R) x l a b : a < x < b ->
  (forall y, a < y < b -> f y = g y) -> is_derive f x l -> is_derive g x l.
Proof.
  intros Hx H. apply is_derive_ext_loc.
  assert (P : 0 < Rmin (x - a) (b - x)) by (apply Rmin_pos; lra).
  exists (mkposreal _ P). intros y Hy. cbn in Hy. apply H.
  unfold ball in Hy; cbn in Hy; unfold AbsRing_ball, abs, minus, plus, opp in Hy; cbn in Hy.
  pose proof (Rmin_l (x - a) (b - x)). pose proof (Rmin_r (x - a) (b - x)).
  apply Rabs_lt_between in Hy. lra.
Qed.

Ltac der := auto_derive; try exact I; try (match goal with |- ?a = ?b => change (@eq R a b) end; cbn).

(** ** Uniform *)
Lemma uniform_new_iff a b : uniform_new a b = Ret (mkUniform a b) <-> a < b.
Proof. unfold uniform_new. rb. rcase; split; try discriminate; try lra; auto. Qed.
Lemma uniform_new_panic a b : uniform_new a b = Panic <-> b <= a.
Proof. unfold uniform_new. rb. rcase; split; try discriminate; try lra; auto. Qed.

Section Uniform.
Variables a b : R.
Hypothesis Hab : a < b.
Let d := mkUniform a b.

Lemma uniform_cdf_in x : a <= x <= b -> uniform_cdf d x = (x - a) / (b - a).
Proof. intros H. unfold uniform_cdf, d; cbn [un_a un_b]. rb. rops. rcase; [lra|]. rcase; lra. Qed.
Lemma uniform_cdf_lo x : x <= a -> uniform_cdf d x = 0.
Proof.
  intros H. unfold uniform_cdf, d; cbn [un_a un_b]. rb. rops. rcase; [reflexivity|]. rcase; [lra|].
  replace (x - a) with 0 by lra. unfold Rdiv. ring.
Qed.
Lemma uniform_cdf_hi x : b <= x -> uniform_cdf d x = 1.
Proof.
  intros H. unfold uniform_cdf, d; cbn [un_a un_b]. rb. rops. rcase; [lra|]. rcase; [reflexivity|].
  replace x with b by lra. field. lra.
Qed.

Lemma uniform_is_cdf : is_cdf (uniform_cdf d).
Proof.
  split; [|split].
  - intros x y Hxy. assert (0 < / (b - a)) by (apply Rinv_0_lt_compat; lra).
    destruct (Rle_dec x a).
    { rewrite (uniform_cdf_lo x) by assumption. destruct (Rle_dec y a); [rewrite uniform_cdf_lo; lra|].
      destruct (Rle_dec b y); [rewrite uniform_cdf_hi; lra|]. rewrite uniform_cdf_in by lra.
      unfold Rdiv. apply Rmult_le_pos; lra. }
    destruct (Rle_dec b y).
    { rewrite (uniform_cdf_hi y) by assumption. destruct (Rle_dec b x); [rewrite uniform_cdf_hi; lra|].
      rewrite uniform_cdf_in by lra. apply Rmult_le_reg_r with (b - a); [lra|]. field_simplify; lra. }
    rewrite !uniform_cdf_in by lra. apply Rmult_le_compat_r; lra.
  - apply is_lim_const_m with a. intros. apply uniform_cdf_lo. lra.
  - apply is_lim_const_p with b. intros. apply uniform_cdf_hi. lra.
Qed.

Lemma uniform_pdf_in x : a <= x <= b -> uniform_pdf d x = / (b - a).
Proof. intros H. unfold uniform_pdf, d; cbn [un_a un_b]. rb. rops. rcase; [|lra]. rcase; lra. Qed.
Lemma uniform_pdf_out x : x < a \/ b < x -> uniform_pdf d x = 0.
Proof. intros H. unfold uniform_pdf, d; cbn [un_a un_b]. rb. rops. rcase; [|lra]. rcase; lra. Qed.

Lemma uniform_derive x : x <> a -> x <> b -> is_derive (uniform_cdf d) x (uniform_pdf d x).
Proof.
  intros Ha Hb. destruct (Rlt_dec x a).
  { rewrite uniform_pdf_out by lra. apply (is_derive_loc (fun _ => 0) _ x 0 (x - 1) a); [lra| |auto_derive; trivial].
    intros. rewrite uniform_cdf_lo; lra. }
  destruct (Rlt_dec b x).
  { rewrite uniform_pdf_out by lra. apply (is_derive_loc (fun _ => 1) _ x 0 b (x + 1)); [lra| |auto_derive; trivial].
    intros. rewrite uniform_cdf_hi; lra. }
  rewrite uniform_pdf_in by lra.
  apply (is_derive_loc (fun y => (y - a) / (b - a)) _ x _ a b); [lra| |].
  - intros. rewrite uniform_cdf_in; lra.
  - auto_derive; [lra|]. field. lra.
Qed.

Lemma uniform_quantile_ok q : 0 <= q <= 1 -> uniform_quantile d q = Ret (q * (b - a) + a).
Proof. intros H. unfold uniform_quantile, d; cbn [un_a un_b]. rb. rops. rcase; [lra|]. rcase; [lra|reflexivity]. Qed.
Lemma uniform_quantile_panic q : ~ (0 <= q <= 1) -> uniform_quantile d q = Panic.
Proof. intros H. unfold uniform_quantile, d. rb. rops. rcase; [reflexivity|]. rcase; [reflexivity|lra]. Qed.

Lemma uniform_cdf_quantile q v : uniform_quantile d q = Ret v -> a <= v <= b /\ uniform_cdf d v = q.
Proof.
  intros E. destruct (Rle_dec 0 q); [destruct (Rle_dec q 1)|].
  - rewrite uniform_quantile_ok in E by lra. injection E as <-. rops.
    assert (0 <= q * (b - a)) by (apply Rmult_le_pos; lra).
    assert (q * (b - a) <= 1 * (b - a)) by (apply Rmult_le_compat_r; lra).
    split; [lra|]. rewrite uniform_cdf_in by lra. field. lra.
  - rewrite uniform_quantile_panic in E by lra. discriminate.
  - rewrite uniform_quantile_panic in E by lra. discriminate.
Qed.
Lemma uniform_quantile_cdf x : a <= x <= b -> uniform_quantile d (uniform_cdf d x) = Ret x.
Proof.
  intros H. rewrite uniform_cdf_in by assumption. rewrite uniform_quantile_ok.
  - f_equal. rops. field. lra.
  - assert (0 < / (b - a)) by (apply Rinv_0_lt_compat; lra). split.
    + unfold Rdiv. apply Rmult_le_pos; lra.
    + apply Rmult_le_reg_r with (b - a); [lra|]. field_simplify; lra.
Qed.

(** Integrals over the support of [g(x) * pdf(x)]. *)
Lemma uniform_int (G g : R -> R) :
  (forall x, is_derive G x (g x)) -> (forall x, continuous g x) ->
  is_RInt (fun x => g x * uniform_pdf d x) a b ((G b - G a) / (b - a)).
Proof.
  intros D C. apply (is_RInt_ext_closed (fun x => g x * / (b - a))); [lra| |].
  - intros x Hx. rewrite uniform_pdf_in by lra. reflexivity.
  - replace ((G b - G a) / (b - a)) with (scal (/ (b - a)) (G b - G a))
      by (unfold scal; cbn; unfold mult; cbn; field; lra).
    apply (is_RInt_ext (fun x => scal (/ (b - a)) (g x))).
    + intros x _. unfold scal; cbn; unfold mult; cbn. ring.
    + apply (@is_RInt_scal R_NormedModule). apply FTC; assumption.
Qed.
Lemma uniform_total : is_RInt (uniform_pdf d) a b 1.
Proof.
  apply (is_RInt_ext (fun x => 1 * uniform_pdf d x)); [intros x _; apply Rmult_1_l|].
  assert (E1 : (b - a) / (b - a) = 1) by (field; lra). refine (eq_ind _ (is_RInt (fun x => 1 * uniform_pdf d x) a b) _ _ E1).
  apply (uniform_int (fun x => x) (fun _ => 1)); intros; [auto_derive; auto|apply continuous_const].
Qed.
Lemma uniform_mean_ok : is_RInt (fun x => x * uniform_pdf d x) a b (uniform_mean d).
Proof.
  replace (uniform_mean d) with ((b * b / 2 - a * a / 2) / (b - a)).
  - apply (uniform_int (fun x => x * x / 2) (fun x => x)); intros; [der; field|apply continuous_id].
  - unfold uniform_mean, d; cbn [un_a un_b]. rewrite lit_2. rops. field. lra.
Qed.
Lemma lit_12 : lit 12 1 = 12. Proof. rewrite lit_R. lra. Qed.
Lemma uniform_variance_ok :
  is_RInt (fun x => (x - uniform_mean d) ^ 2 * uniform_pdf d x) a b (uniform_variance d).
Proof.
  set (m := uniform_mean d). assert (Em : m = (a + b) / 2)
    by (unfold m, uniform_mean, d; cbn [un_a un_b]; rewrite lit_2; reflexivity).
  replace (uniform_variance d) with (((b - m) ^ 3 / 3 - (a - m) ^ 3 / 3) / (b - a)).
  - apply (uniform_int (fun x => (x - m) ^ 3 / 3) (fun x => (x - m) ^ 2)); intros.
    + der; field.
    + apply (ex_derive_continuous (fun x => (x - m) ^ 2)). auto_derive. auto.
  - unfold uniform_variance, d; cbn [un_a un_b]. rewrite lit_12, Em. rops. field. lra.
Qed.
Lemma uniform_skewness_ok :
  is_RInt (fun x => (x - uniform_mean d) ^ 3 * uniform_pdf d x) a b (uniform_skewness d).
Proof.
  set (m := uniform_mean d). assert (Em : m = (a + b) / 2)
    by (unfold m, uniform_mean, d; cbn [un_a un_b]; rewrite lit_2; reflexivity).
  replace (uniform_skewness d) with (((b - m) ^ 4 / 4 - (a - m) ^ 4 / 4) / (b - a)).
  - apply (uniform_int (fun x => (x - m) ^ 4 / 4) (fun x => (x - m) ^ 3)); intros.
    + der; field.
    + apply (ex_derive_continuous (fun x => (x - m) ^ 3)). auto_derive. auto.
  - unfold uniform_skewness. rewrite Em. rops. field. lra.
Qed.
Lemma uniform_median_ok : uniform_cdf d (uniform_median d) = 1 / 2.
Proof.
  unfold uniform_median, uniform_mean; cbn [un_a un_b d]. rewrite lit_2. rops.
  rewrite uniform_cdf_in by lra. field. lra.
Qed.
Lemma uniform_entropy_ok :
  is_RInt (fun x => - ln (uniform_pdf d x) * uniform_pdf d x) a b (uniform_entropy d).
Proof.
  apply (is_RInt_ext_closed (fun x => ln (b - a) * uniform_pdf d x)); [lra| |].
  - intros x Hx. rewrite uniform_pdf_in by lra. rewrite ln_Rinv by lra. ring.
  - replace (uniform_entropy d) with ((ln (b - a) * b - ln (b - a) * a) / (b - a))
      by (unfold uniform_entropy, d; cbn [un_a un_b]; rops; field; lra).
    apply (uniform_int (fun x => ln (b - a) * x) (fun _ => ln (b - a))); intros;
      [der; ring|apply continuous_const].
Qed.
End Uniform.

(** ** Exponential *)
Lemma exponential_new_iff l : exponential_new l = Ret (mkExponential l) <-> 0 < l.
Proof. unfold exponential_new. rb. rops. rcase; split; try discriminate; try lra; auto. Qed.
Lemma exponential_new_panic l : exponential_new l = Panic <-> l <= 0.
Proof. unfold exponential_new. rb. rops. rcase; split; try discriminate; try lra; auto. Qed.

Lemma is_lim_lin_neg l : 0 < l -> is_lim (fun x => - l * x) p_infty m_infty.
Proof.
  intros H. apply is_lim_spec. intros M. exists (- M / l). intros x Hx.
  apply (Rmult_lt_compat_l l) in Hx; [|assumption].
  replace (l * (- M / l)) with (- M) in Hx by (field; lra). lra.
Qed.
Lemma is_lim_exp_neg l : 0 < l -> is_lim (fun x => exp (- l * x)) p_infty 0.
Proof.
  intros H. apply (is_lim_comp exp (fun x => - l * x) p_infty 0 m_infty).
  - apply is_lim_exp_m.
  - apply is_lim_lin_neg. assumption.
  - exists 0. intros. discriminate.
Qed.
Lemma is_lim_xexp_neg l : 0 < l -> is_lim (fun x => x * exp (- l * x)) p_infty 0.
Proof.
  intros H. apply (is_lim_ext (fun x => (- / l) * ((- l * x) * exp (- l * x)))); [intros; field; lra|].
  replace (Finite 0) with (Rbar_mult (- / l) 0) by (cbn; f_equal; ring). apply is_lim_scal_l.
  apply (is_lim_comp (fun y => y * exp y) (fun x => - l * x) p_infty 0 m_infty).
  - apply is_lim_mul_exp_m.
  - apply is_lim_lin_neg. assumption.
  - exists 0. intros. discriminate.
Qed.
Lemma is_lim_x2exp_neg l : 0 < l -> is_lim (fun x => x * x * exp (- l * x)) p_infty 0.
Proof.
  intros H. apply (is_lim_ext (fun x => (x * exp (- (l / 2) * x)) * (x * exp (- (l / 2) * x)))).
  - intros x. replace (- l * x) with (- (l / 2) * x + - (l / 2) * x) by field. rewrite exp_plus. ring.
  - replace (Finite 0) with (Rbar_mult 0 0) by (cbn; f_equal; ring).
    apply is_lim_mult; [apply is_lim_xexp_neg; lra|apply is_lim_xexp_neg; lra|exact I].
Qed.

Section Exponential.
Variable l : R.
Hypothesis Hl : 0 < l.
Let d := mkExponential l.

Lemma exponential_cdf_pos x : 0 <= x -> exponential_cdf d x = 1 - exp (- l * x).
Proof.
  intros H. unfold exponential_cdf, d; cbn [ex_l]. rb. rops. rcase; [lra|].
  replace (- x * l) with (- l * x) by ring. reflexivity.
Qed.
Lemma exponential_cdf_neg x : x < 0 -> exponential_cdf d x = 0.
Proof. intros H. unfold exponential_cdf. rb. rops. rcase; [reflexivity|lra]. Qed.
Lemma exponential_pdf_pos x : 0 <= x -> exponential_pdf d x = l * exp (- l * x).
Proof. intros H. unfold exponential_pdf, d; cbn [ex_l]. rb. rops. rcase; [lra|reflexivity]. Qed.
Lemma exponential_pdf_neg x : x < 0 -> exponential_pdf d x = 0.
Proof. intros H. unfold exponential_pdf. rb. rops. rcase; [reflexivity|lra]. Qed.
Lemma exponential_pdf_nonneg x : 0 <= exponential_pdf d x.
Proof.
  destruct (Rlt_dec x 0); [rewrite exponential_pdf_neg; lra|]. rewrite exponential_pdf_pos by lra.
  apply Rmult_le_pos; [lra|]. left. apply exp_pos.
Qed.

Lemma exponential_cdf_range x : 0 <= exponential_cdf d x < 1.
Proof.
  destruct (Rlt_dec x 0); [rewrite exponential_cdf_neg; lra|]. rewrite exponential_cdf_pos by lra.
  pose proof (exp_pos (- l * x)). assert (exp (- l * x) <= 1); [|lra].
  rewrite <- exp_0. apply Rnot_lt_le. intros G. apply exp_lt_inv in G.
  assert (0 <= l * x) by (apply Rmult_le_pos; lra). lra.
Qed.
Lemma exponential_is_cdf : is_cdf (exponential_cdf d).
Proof.
  split; [|split].
  - intros x y Hxy. destruct (Rlt_dec x 0).
    { rewrite exponential_cdf_neg by assumption. apply exponential_cdf_range. }
    rewrite !exponential_cdf_pos by lra. assert (exp (- l * y) <= exp (- l * x)); [|lra].
    apply Rnot_lt_le. intros G. apply exp_lt_inv in G.
    assert (l * x <= l * y) by (apply Rmult_le_compat_l; lra). lra.
  - apply is_lim_const_m with 0. intros. apply exponential_cdf_neg. assumption.
  - apply (is_lim_ext_loc (fun x => 1 - exp (- l * x))).
    + exists 0. intros x Hx. symmetry. apply exponential_cdf_pos. lra.
    + replace (Finite 1) with (Rbar_minus 1 0) by (cbn; f_equal; ring).
      eapply is_lim_minus; [apply is_lim_const|apply is_lim_exp_neg; assumption|reflexivity].
Qed.
Lemma exponential_derive x : x <> 0 -> is_derive (exponential_cdf d) x (exponential_pdf d x).
Proof.
  intros Hx. destruct (Rlt_dec x 0).
  - rewrite exponential_pdf_neg by assumption.
    apply (is_derive_loc (fun _ => 0) _ x 0 (x - 1) 0); [lra| |auto_derive; trivial].
    intros. symmetry. apply exponential_cdf_neg. lra.
  - rewrite exponential_pdf_pos by lra.
    apply (is_derive_loc (fun x => 1 - exp (- l * x)) _ x _ 0 (x + 1)); [lra| |].
    + intros. symmetry. apply exponential_cdf_pos. lra.
    + auto_derive; [auto|]. ring.
Qed.
Lemma exponential_cdf_quantile p : 0 <= p < 1 ->
  0 <= exponential_quantile d p /\ exponential_cdf d (exponential_quantile d p) = p.
Proof.
  intros Hp. assert (L : ln (1 - p) <= 0).
  { rewrite <- ln_1. destruct (Req_dec p 0) as [->|]; [replace (1 - 0) with 1 by ring; lra|].
    left. apply ln_increasing; lra. }
  assert (Q : exponential_quantile d p = - ln (1 - p) / l) by reflexivity.
  assert (0 <= exponential_quantile d p).
  { rewrite Q. apply Rmult_le_pos; [lra|]. left. apply Rinv_0_lt_compat. assumption. }
  split; [assumption|]. rewrite exponential_cdf_pos by assumption. rewrite Q.
  replace (- l * (- ln (1 - p) / l)) with (ln (1 - p)) by (field; lra). rewrite exp_ln by lra. ring.
Qed.
Lemma exponential_quantile_cdf x : 0 <= x -> exponential_quantile d (exponential_cdf d x) = x.
Proof.
  intros H. rewrite exponential_cdf_pos by assumption. unfold exponential_quantile, d; cbn [ex_l]. rops.
  replace (1 - (1 - exp (- l * x))) with (exp (- l * x)) by ring. rewrite ln_exp. field. lra.
Qed.
Lemma exponential_memoryless s t : 0 <= s -> 0 <= t ->
  1 - exponential_cdf d (s + t) = (1 - exponential_cdf d s) * (1 - exponential_cdf d t).
Proof.
  intros Hs Ht. rewrite !exponential_cdf_pos by lra.
  replace (- l * (s + t)) with (- l * s + - l * t) by ring. rewrite exp_plus. ring.
Qed.
Lemma exponential_median_ok : exponential_cdf d (exponential_median d) = 1 / 2.
Proof.
  unfold exponential_median; cbn [ex_l d]. rewrite lit_2. rops.
  assert (0 < ln 2) by (rewrite <- ln_1; apply ln_increasing; lra).
  rewrite exponential_cdf_pos.
  - replace (- l * (ln 2 / l)) with (- ln 2) by (field; lra). rewrite exp_Ropp, exp_ln by lra. field.
  - apply Rmult_le_pos; [lra|]. left. apply Rinv_0_lt_compat. assumption.
Qed.

(** Inverse transform sampling. *)
Lemma exponential_random_law u x : 0 <= u < 1 -> 0 <= x ->
  (exponential_random d u <= x <-> u <= exponential_cdf d x).
Proof.
  intros Hu Hx. unfold exponential_random. destruct (exponential_cdf_quantile u Hu) as [Q0 QE].
  pose proof (exponential_is_cdf) as [M _]. split; intros H.
  - rewrite <- QE. apply M. assumption.
  - apply Rnot_lt_le. intros G. apply (Rlt_not_le (exponential_cdf d (exponential_quantile d u)) (exponential_cdf d x)).
    + rewrite !exponential_cdf_pos by lra. apply Rplus_lt_compat_l, Ropp_lt_contravar, exp_increasing.
      assert (l * x < l * exponential_quantile d u) by (apply Rmult_lt_compat_l; lra). lra.
    + rewrite QE. assumption.
Qed.

Lemma exponential_int (G g : R -> R) (v : R) :
  (forall x, is_derive G x (g x * (l * exp (- l * x)))) ->
  (forall x, continuous (fun x => g x * (l * exp (- l * x))) x) ->
  is_lim (fun t => G t - G 0) p_infty v ->
  improper_integral (fun x => g x * exponential_pdf d x) 0 v.
Proof.
  intros D C L.
  assert (I : forall t, 0 <= t -> is_RInt (fun x => g x * exponential_pdf d x) 0 t (G t - G 0)).
  { intros t Ht. apply (is_RInt_ext_closed (fun x => g x * (l * exp (- l * x)))); [assumption| |].
    - intros x Hx. rewrite exponential_pdf_pos by lra. reflexivity.
    - apply FTC; assumption. }
  split.
  - intros t Ht. exists (G t - G 0). apply I. assumption.
  - apply (is_lim_ext_loc (fun t => G t - G 0)); [|assumption].
    exists 0. intros t Ht. symmetry. apply is_RInt_unique. apply I. lra.
Qed.

Lemma exponential_total : improper_integral (exponential_pdf d) 0 1.
Proof.
  assert (H : improper_integral (fun x => 1 * exponential_pdf d x) 0 1).
  { apply (exponential_int (fun x => - exp (- l * x)) (fun _ => 1)).
    - intros x. auto_derive; [auto|ring].
    - intros x. apply (ex_derive_continuous (fun x => 1 * (l * exp (- l * x)))). auto_derive. auto.
    - apply (is_lim_ext (fun t => 1 - exp (- l * t))).
      + intros t. rewrite Rmult_0_r, exp_0. ring.
      + replace (Finite 1) with (Rbar_minus 1 0) by (cbn; f_equal; ring).
        eapply is_lim_minus; [apply is_lim_const|apply is_lim_exp_neg; assumption|reflexivity]. }
  destruct H as [H1 H2]. split.
  - intros b Hb. apply (ex_RInt_ext (fun x => 1 * exponential_pdf d x)); [intros x _; apply Rmult_1_l|auto].
  - eapply is_lim_ext; [|exact H2]. intros y. apply RInt_ext. intros x _; apply Rmult_1_l.
Qed.
Lemma exponential_mean_ok : improper_integral (fun x => x * exponential_pdf d x) 0 (exponential_mean d).
Proof.
  apply (exponential_int (fun x => - (x + / l) * exp (- l * x)) (fun x => x)).
  - intros x. auto_derive; [auto|]. field. lra.
  - intros x. apply (ex_derive_continuous (fun x => x * (l * exp (- l * x)))). auto_derive. auto.
  - apply (is_lim_ext (fun t => / l - (t * exp (- l * t) + / l * exp (- l * t)))).
    + intros t. rewrite Rmult_0_r, exp_0. ring.
    + unfold exponential_mean; cbn [ex_l d]. rops.
      replace (1 / l) with (/ l - (0 + / l * 0)) by (field; lra).
      apply is_lim_minus'; [apply is_lim_const|].
      apply is_lim_plus'; [apply is_lim_xexp_neg; assumption|].
      apply (is_lim_scal_l _ (/ l) p_infty 0). apply is_lim_exp_neg. assumption.
Qed.
Lemma exponential_variance_ok :
  improper_integral (fun x => (x - exponential_mean d) ^ 2 * exponential_pdf d x) 0 (exponential_variance d).
Proof.
  assert (Em : exponential_mean d = / l) by (unfold exponential_mean; cbn [ex_l d]; rops; field; lra).
  rewrite Em.
  apply (exponential_int (fun x => - (x * x + / l * / l) * exp (- l * x)) (fun x => (x - / l) ^ 2)).
  - intros x. auto_derive; [auto|]. field. lra.
  - intros x. apply (ex_derive_continuous (fun x => (x - / l) ^ 2 * (l * exp (- l * x)))). auto_derive. auto.
  - apply (is_lim_ext (fun t => / l * / l - (t * t * exp (- l * t) + / l * / l * exp (- l * t)))).
    + intros t. rewrite (Rmult_0_r (- l)), exp_0. ring.
    + unfold exponential_variance; cbn [ex_l d]. rops. rewrite R_pow_2.
      replace (1 / (l * l)) with (/ l * / l - (0 + / l * / l * 0)) by (field; lra).
      apply is_lim_minus'; [apply is_lim_const|].
      apply is_lim_plus'; [apply is_lim_x2exp_neg; assumption|].
      apply (is_lim_scal_l _ (/ l * / l) p_infty 0). apply is_lim_exp_neg. assumption.
Qed.
End Exponential.

(** ** Raised cosine *)
Lemma raised_new_iff mu s : raised_new mu s = Ret (mkRaised mu s) <-> 0 <= s.
Proof. unfold raised_new. rb. rops. rcase; split; try discriminate; try lra; auto. Qed.
Lemma raised_new_panic mu s : raised_new mu s = Panic <-> s < 0.
Proof. unfold raised_new. rb. rops. rcase; split; try discriminate; try lra; auto. Qed.

Lemma sin_lip_lt a b : a < b -> sin a - sin b <= b - a.
Proof.
  intros H. destruct (MVT_cor2 sin cos a b H) as [c [E _]].
  - intros c _. apply derivable_pt_lim_sin.
  - pose proof (COS_bound c). assert (-1 * (b - a) <= cos c * (b - a)) by (apply Rmult_le_compat_r; lra). lra.
Qed.

Section Raised.
Variables mu s : R.
Hypothesis Hs : 0 < s.
Let d := mkRaised mu s.

(** The smooth formulas used on the support. *)
Definition rc_p (x : R) : R := (1 + cos (PI * (x - mu) / s)) / (2 * s).
Definition rc_c (x : R) : R := (1 + (x - mu) / s + 1 / PI * sin ((x - mu) / s * PI)) / 2.

Lemma rc_p_lo : rc_p (mu - s) = 0.
Proof.
  unfold rc_p. replace (PI * (mu - s - mu) / s) with (- PI) by (field; lra).
  rewrite cos_neg, cos_PI. field. lra.
Qed.
Lemma rc_p_hi : rc_p (mu + s) = 0.
Proof.
  unfold rc_p. replace (PI * (mu + s - mu) / s) with PI by (field; lra). rewrite cos_PI. field. lra.
Qed.
Lemma rc_c_lo : rc_c (mu - s) = 0.
Proof.
  unfold rc_c. replace ((mu - s - mu) / s) with (-1) by (field; lra).
  replace (-1 * PI) with (- PI) by ring. rewrite sin_neg, sin_PI. field. apply PI_neq0.
Qed.
Lemma rc_c_hi : rc_c (mu + s) = 1.
Proof.
  unfold rc_c. replace ((mu + s - mu) / s) with 1 by (field; lra).
  rewrite Rmult_1_l, sin_PI. field. apply PI_neq0.
Qed.
Lemma rc_p_nonneg x : 0 <= rc_p x.
Proof.
  unfold rc_p. pose proof (COS_bound (PI * (x - mu) / s)). apply Rmult_le_pos; [lra|].
  left. apply Rinv_0_lt_compat. lra.
Qed.
Lemma rc_derive x : is_derive rc_c x (rc_p x).
Proof.
  unfold rc_c, rc_p. pose proof PI_neq0. auto_derive; [auto|].
  replace ((x + - mu) * / s * PI) with (PI * (x - mu) / s) by (field; lra). field. lra.
Qed.
Lemma rc_p_cont x : continuous rc_p x.
Proof. apply (ex_derive_continuous rc_p). unfold rc_p. auto_derive. auto. Qed.

Lemma raised_pdf_in x : mu - s <= x <= mu + s -> raised_pdf d x = rc_p x.
Proof.
  intros H. unfold raised_pdf, d; cbn [rc_mu rc_s]. rb. rewrite lit_2. rops. repeat rcase; try reflexivity; try lra.
  replace x with (mu + s) by lra. symmetry. apply rc_p_hi.
Qed.
Lemma raised_pdf_out x : x <= mu - s \/ mu + s <= x -> raised_pdf d x = 0.
Proof.
  intros H. destruct (Req_dec x (mu - s)) as [->|N]; [rewrite raised_pdf_in by lra; apply rc_p_lo|].
  unfold raised_pdf, d; cbn [rc_mu rc_s]. rb. rops. repeat rcase; try reflexivity; lra.
Qed.
Lemma raised_cdf_in x : mu - s <= x <= mu + s -> raised_cdf d x = rc_c x.
Proof.
  intros H. unfold raised_cdf, d; cbn [rc_mu rc_s]. rb. rewrite lit_2. rops. repeat rcase; try reflexivity; lra.
Qed.
Lemma raised_cdf_lo x : x <= mu - s -> raised_cdf d x = 0.
Proof.
  intros H. destruct (Req_dec x (mu - s)) as [->|N]; [rewrite raised_cdf_in by lra; apply rc_c_lo|].
  unfold raised_cdf, d; cbn [rc_mu rc_s]. rb. rops. repeat rcase; try reflexivity; lra.
Qed.
Lemma raised_cdf_hi x : mu + s <= x -> raised_cdf d x = 1.
Proof.
  intros H. destruct (Req_dec x (mu + s)) as [->|N]; [rewrite raised_cdf_in by lra; apply rc_c_hi|].
  unfold raised_cdf, d; cbn [rc_mu rc_s]. rb. rops. repeat rcase; try reflexivity; lra.
Qed.

Lemma raised_pdf_nonneg x : 0 <= raised_pdf d x.
Proof.
  destruct (Rle_dec x (mu - s)); [rewrite raised_pdf_out; lra|].
  destruct (Rle_dec (mu + s) x); [rewrite raised_pdf_out; lra|].
  rewrite raised_pdf_in by lra. apply rc_p_nonneg.
Qed.

Lemma rc_c_mono x y : x <= y -> rc_c x <= rc_c y.
Proof.
  intros [H|<-]; [|lra]. unfold rc_c. pose proof PI_RGT_0.
  assert (E : (x - mu) / s < (y - mu) / s).
  { apply Rmult_lt_compat_r; [apply Rinv_0_lt_compat; lra|lra]. }
  set (u := (x - mu) / s) in *. set (v := (y - mu) / s) in *.
  assert (E' : u * PI < v * PI) by (apply Rmult_lt_compat_r; lra).
  apply sin_lip_lt in E'.
  assert (1 / PI * (sin (u * PI) - sin (v * PI)) <= 1 / PI * (v * PI - u * PI)).
  { apply Rmult_le_compat_l; [|assumption]. apply Rlt_le, Rdiv_lt_0_compat; lra. }
  replace (1 / PI * (v * PI - u * PI)) with (v - u) in * by (field; lra). lra.
Qed.
Lemma raised_is_cdf : is_cdf (raised_cdf d).
Proof.
  split; [|split].
  - intros x y Hxy. destruct (Rle_dec x (mu - s)).
    { rewrite (raised_cdf_lo x) by assumption.
      destruct (Rle_dec y (mu - s)); [rewrite raised_cdf_lo; lra|].
      destruct (Rle_dec (mu + s) y); [rewrite raised_cdf_hi; lra|].
      rewrite raised_cdf_in by lra. rewrite <- rc_c_lo. apply rc_c_mono. lra. }
    destruct (Rle_dec (mu + s) y).
    { rewrite (raised_cdf_hi y) by assumption. destruct (Rle_dec (mu + s) x); [rewrite raised_cdf_hi; lra|].
      rewrite raised_cdf_in by lra. rewrite <- rc_c_hi. apply rc_c_mono. lra. }
    rewrite !raised_cdf_in by lra. apply rc_c_mono. assumption.
  - apply is_lim_const_m with (mu - s). intros. apply raised_cdf_lo. lra.
  - apply is_lim_const_p with (mu + s). intros. apply raised_cdf_hi. lra.
Qed.

(** The distribution function is differentiable everywhere, at the two ends of the support too. *)
Lemma raised_derive x : is_derive (raised_cdf d) x (raised_pdf d x).
Proof.
  destruct (Rlt_dec x (mu - s)).
  { rewrite raised_pdf_out by lra.
    apply (is_derive_loc (fun _ => 0) _ x 0 (x - 1) (mu - s)); [lra| |auto_derive; trivial].
    intros. rewrite raised_cdf_lo; lra. }
  destruct (Rlt_dec (mu + s) x).
  { rewrite raised_pdf_out by lra.
    apply (is_derive_loc (fun _ => 1) _ x 0 (mu + s) (x + 1)); [lra| |auto_derive; trivial].
    intros. rewrite raised_cdf_hi; lra. }
  destruct (Req_dec x (mu - s)) as [E|N1].
  { rewrite raised_pdf_in by lra.
    pose proof (rc_derive x) as D. apply is_derive_Reals in D. apply is_derive_Reals.
    intros e He. destruct (D e He) as [dl Hd].
    assert (Hr : 0 < Rmin dl s) by (apply Rmin_pos; [apply cond_pos|assumption]).
    exists (mkposreal _ Hr). intros h Hh Hl. cbn in Hl.
    assert (L1 : Rabs h < dl) by (eapply Rlt_le_trans; [exact Hl|apply Rmin_l]).
    assert (L2 : Rabs h < s) by (eapply Rlt_le_trans; [exact Hl|apply Rmin_r]).
    apply Rabs_lt_between in L2. specialize (Hd h Hh L1). rewrite (raised_cdf_in x) by lra.
    destruct (Rlt_dec h 0).
    - rewrite raised_cdf_lo by lra. rewrite E, rc_c_lo, rc_p_lo.
      replace ((0 - 0) / h - 0) with 0 by (field; assumption). rewrite Rabs_R0. assumption.
    - rewrite raised_cdf_in by lra. assumption. }
  destruct (Req_dec x (mu + s)) as [E|N2].
  { rewrite raised_pdf_in by lra.
    pose proof (rc_derive x) as D. apply is_derive_Reals in D. apply is_derive_Reals.
    intros e He. destruct (D e He) as [dl Hd].
    assert (Hr : 0 < Rmin dl s) by (apply Rmin_pos; [apply cond_pos|assumption]).
    exists (mkposreal _ Hr). intros h Hh Hl. cbn in Hl.
    assert (L1 : Rabs h < dl) by (eapply Rlt_le_trans; [exact Hl|apply Rmin_l]).
    assert (L2 : Rabs h < s) by (eapply Rlt_le_trans; [exact Hl|apply Rmin_r]).
    apply Rabs_lt_between in L2. specialize (Hd h Hh L1). rewrite (raised_cdf_in x) by lra.
    destruct (Rlt_dec 0 h).
    - rewrite raised_cdf_hi by lra. rewrite E, rc_c_hi, rc_p_hi.
      replace ((1 - 1) / h - 0) with 0 by (field; assumption). rewrite Rabs_R0. assumption.
    - rewrite raised_cdf_in by lra. assumption. }
  rewrite raised_pdf_in by lra.
  apply (is_derive_loc rc_c _ x _ (mu - s) (mu + s)); [lra| |apply rc_derive].
  intros. rewrite raised_cdf_in; lra.
Qed.

Lemma rc_sym t : rc_p (mu + t) = rc_p (mu - t).
Proof.
  unfold rc_p. replace (PI * (mu - t - mu) / s) with (- (PI * (mu + t - mu) / s)) by (field; lra).
  rewrite cos_neg. reflexivity.
Qed.
Lemma raised_pdf_sym t : raised_pdf d (mu + t) = raised_pdf d (mu - t).
Proof.
  destruct (Rle_dec s t); [rewrite !raised_pdf_out by lra; reflexivity|].
  destruct (Rle_dec t (- s)); [rewrite !raised_pdf_out by lra; reflexivity|].
  rewrite !raised_pdf_in by lra. apply rc_sym.
Qed.
Lemma raised_cdf_sym t : raised_cdf d (mu + t) + raised_cdf d (mu - t) = 1.
Proof.
  destruct (Rle_dec s t); [rewrite (raised_cdf_hi (mu + t)), (raised_cdf_lo (mu - t)) by lra; ring|].
  destruct (Rle_dec t (- s)); [rewrite (raised_cdf_lo (mu + t)), (raised_cdf_hi (mu - t)) by lra; ring|].
  rewrite !raised_cdf_in by lra. unfold rc_c.
  replace (mu - t - mu) with (- t) by ring. replace (mu + t - mu) with t by ring.
  replace (- t / s * PI) with (- (t / s * PI)) by (field; lra). rewrite sin_neg. pose proof PI_neq0; field; repeat split; lra.
Qed.
Lemma raised_median_ok : raised_cdf d (raised_median d) = 1 / 2.
Proof.
  pose proof (raised_cdf_sym 0) as H. replace (mu + 0) with mu in H by ring.
  replace (mu - 0) with mu in H by ring. unfold raised_median; cbn [rc_mu d]. lra.
Qed.

Lemma raised_int (G g : R -> R) v :
  (forall x, is_derive G x (g x * rc_p x)) -> (forall x, continuous (fun x => g x * rc_p x) x) ->
  G (mu + s) - G (mu - s) = v ->
  is_RInt (fun x => g x * raised_pdf d x) (mu - s) (mu + s) v.
Proof.
  intros D C <-. apply (is_RInt_ext_closed (fun x => g x * rc_p x)); [lra| |].
  - intros x Hx. rewrite raised_pdf_in by lra. reflexivity.
  - apply FTC; assumption.
Qed.
Lemma raised_total : is_RInt (raised_pdf d) (mu - s) (mu + s) 1.
Proof.
  apply (is_RInt_ext (fun x => 1 * raised_pdf d x)); [intros x _; apply Rmult_1_l|].
  apply (raised_int rc_c (fun _ => 1)).
  - intros x. rewrite Rmult_1_l. apply rc_derive.
  - intros x. apply (continuous_ext rc_p); [intros; symmetry; apply Rmult_1_l|apply rc_p_cont].
  - rewrite rc_c_lo, rc_c_hi. ring.
Qed.

(** Antiderivatives of [(x - mu) p] and [(x - mu)^2 p]. *)
Definition rc_m1 (x : R) : R :=
  ((x - mu) ^ 2 / 2 + (x - mu) * s / PI * sin (PI * (x - mu) / s)
   + s * s / (PI * PI) * cos (PI * (x - mu) / s)) / (2 * s).
Definition rc_m2 (x : R) : R :=
  ((x - mu) ^ 3 / 3 + (x - mu) ^ 2 * s / PI * sin (PI * (x - mu) / s)
   + 2 * (x - mu) * (s * s) / (PI * PI) * cos (PI * (x - mu) / s)
   - 2 * (s * s * s) / (PI * PI * PI) * sin (PI * (x - mu) / s)) / (2 * s).
Lemma rc_m1_derive x : is_derive rc_m1 x ((x - mu) * rc_p x).
Proof.
  unfold rc_m1, rc_p. pose proof PI_neq0. auto_derive; [auto|].
  replace (PI * (x + - mu) * / s) with (PI * (x - mu) / s) by reflexivity.
  field. repeat split; lra.
Qed.
Lemma rc_m2_derive x : is_derive rc_m2 x ((x - mu) ^ 2 * rc_p x).
Proof.
  unfold rc_m2, rc_p. pose proof PI_neq0. auto_derive; [auto|].
  replace (PI * (x + - mu) * / s) with (PI * (x - mu) / s) by reflexivity.
  field. repeat split; lra.
Qed.
Lemma arg_hi : PI * (mu + s - mu) / s = PI. Proof. field. lra. Qed.
Lemma arg_lo : PI * (mu - s - mu) / s = - PI. Proof. field. lra. Qed.
Lemma raised_mean_ok : is_RInt (fun x => x * raised_pdf d x) (mu - s) (mu + s) (raised_mean d).
Proof.
  unfold raised_mean; cbn [rc_mu d].
  apply (raised_int (fun x => rc_m1 x + mu * rc_c x) (fun x => x)).
  - intros x. replace (x * rc_p x) with ((x - mu) * rc_p x + mu * rc_p x) by ring.
    apply (@is_derive_plus _ R_NormedModule); [apply rc_m1_derive|].
    apply (is_derive_scal rc_c x mu). apply rc_derive.
  - intros x. apply (ex_derive_continuous (fun x => x * rc_p x)). unfold rc_p. auto_derive. auto.
  - rewrite rc_c_hi, rc_c_lo. unfold rc_m1. rewrite arg_hi, arg_lo, sin_neg, cos_neg, sin_PI, cos_PI.
    pose proof PI_neq0. field. split; lra.
Qed.
Lemma raised_variance_ok :
  is_RInt (fun x => (x - raised_mean d) ^ 2 * raised_pdf d x) (mu - s) (mu + s) (raised_variance d).
Proof.
  unfold raised_mean; cbn [rc_mu d].
  apply (raised_int rc_m2 (fun x => (x - mu) ^ 2)).
  - intros x. apply rc_m2_derive.
  - intros x. apply (ex_derive_continuous (fun x => (x - mu) ^ 2 * rc_p x)). unfold rc_p. auto_derive. auto.
  - unfold rc_m2, raised_variance; cbn [rc_s d]. rewrite arg_hi, arg_lo, sin_neg, cos_neg, sin_PI, cos_PI, lit_2, lit_R.
    rops. pose proof PI_neq0. field. split; lra.
Qed.
End Raised.

(** A width of zero is accepted; the support is then a single point. *)
Lemma raised_zero_cdf : exists d, raised_new 0 0 = Ret d /\ (forall x, raised_pdf d x = 0).
Proof.
  exists (mkRaised 0 0). split; [apply raised_new_iff; lra|]. intros x.
  unfold raised_pdf; cbn [rc_mu rc_s]. rb. rops. repeat rcase; try reflexivity; lra.
Qed.
