(** Further facts on the statistics model: higher moments, the special functions of the crate inside
    the distributions, and the witnesses of the refuted statements. *)
From Coq Require Import Arith Lia List Bool ZArith Reals Lra SpecFloat Psatz.
From Coquelicot Require Import Coquelicot.
From Verif Require Import Outcome Scalar RealOps Elem_model Int_model Ode_model Special_model Stat_model.
From Verif Require Import Stat_spec Combin_proofs Discrete_proofs OdeOrder_proofs Continuous_proofs Gauss_proofs Normal_proofs Sample_proofs Special_proofs GammaTerm_proofs GammaFun_proofs GammaDist_proofs.
Import ListNotations.
Local Open Scope R_scope.

(** ** Poisson moments *)
Lemma poisson_law_S g k : INR (S k) * poisson_law g (S k) = g * poisson_law g k.
Proof.
  unfold poisson_law. rewrite fact_simpl, mult_INR. cbn [pow]. assert (INR (S k) <> 0) by (apply not_0_INR; lia).
  pose proof (INR_fact_neq_0 k). field. split; assumption.
Qed.
Lemma is_series_R_scal (a : nat -> R) c l : is_series a l -> is_series (fun k => c * a k) (c * l).
Proof. intros H. apply (is_series_scal_l c a l H). Qed.
Lemma is_series_R_plus (a b : nat -> R) la lb : is_series a la -> is_series b lb -> is_series (fun k => a k + b k) (la + lb).
Proof. intros Ha Hb. apply (is_series_plus a b la lb Ha Hb). Qed.
Lemma is_series_eq (a : nat -> R) (l l' : R) : l = l' -> is_series a l -> is_series a l'.
Proof. intros <-. exact (fun H => H). Qed.
Lemma is_series_shift (a : nat -> R) l : a O = 0 -> is_series (fun k => a (S k)) l -> is_series a l.
Proof.
  intros A0 H. apply is_series_decr_1. unfold plus, opp; cbn. rewrite A0, Ropp_0, Rplus_0_r. exact H.
Qed.
Lemma poisson_mean_ok g : is_series (fun k => INR k * poisson_law g k) g.
Proof.
  apply is_series_shift; [cbn [INR]; ring|]. apply (is_series_ext (fun k => g * poisson_law g k)); [intros; symmetry; apply poisson_law_S|].
  apply (is_series_eq _ (g * 1)); [ring|]. apply is_series_R_scal, poisson_total.
Qed.
Lemma poisson_fact2 g : is_series (fun k => INR k * (INR k - 1) * poisson_law g k) (g * g).
Proof.
  apply is_series_shift; [cbn [INR]; ring|].
  apply (is_series_ext (fun k => g * (INR k * poisson_law g k))).
  - intros k. rewrite S_INR. replace (INR k + 1 - 1) with (INR k) by ring.
    replace ((INR k + 1) * INR k * poisson_law g (S k)) with (INR k * (INR (S k) * poisson_law g (S k))) by (rewrite S_INR; ring).
    rewrite poisson_law_S. match goal with |- ?a = ?b => change (@eq R a b) end. ring.
  - apply is_series_R_scal, poisson_mean_ok.
Qed.
Lemma poisson_variance_ok g : is_series (fun k => (INR k - g) ^ 2 * poisson_law g k) g.
Proof.
  apply (is_series_ext (fun k => INR k * (INR k - 1) * poisson_law g k + ((1 - 2 * g) * (INR k * poisson_law g k) + g * g * poisson_law g k))).
  - intros k. match goal with |- ?a = ?b => change (@eq R a b) end. ring.
  - apply (is_series_eq _ (g * g + ((1 - 2 * g) * g + g * g * 1))); [ring|].
    apply is_series_R_plus; [apply poisson_fact2|]. apply is_series_R_plus; apply is_series_R_scal; [apply poisson_mean_ok|apply poisson_total].
Qed.

(** ** Exponential *)
Lemma is_lim_x3exp_neg l : 0 < l -> is_lim (fun x => x * x * x * exp (- l * x)) p_infty 0.
Proof.
  intros Hl. set (k := l / 3). assert (Hk : 0 < k) by (unfold k; lra).
  apply (is_lim_ext (fun x => (x * exp (- k * x)) * (x * exp (- k * x)) * (x * exp (- k * x)))).
  - intros x. replace (- l * x) with (- k * x + - k * x + - k * x) by (unfold k; field). rewrite !exp_plus.
    match goal with |- ?a = ?b => change (@eq R a b) end. ring.
  - assert (L := is_lim_xexp_neg k Hk). replace (Finite 0) with (Rbar_mult (Rbar_mult 0 0) 0) by (cbn; f_equal; ring).
    apply (is_lim_mult _ _ p_infty (Rbar_mult 0 0) 0); [|exact L|exact I].
    apply (is_lim_mult _ _ p_infty 0 0); [exact L|exact L|exact I].
Qed.
Lemma exponential_skew_ok l : 0 < l -> 
  improper_integral (fun x => (x - exponential_mean (mkExponential l)) ^ 3 * exponential_pdf (mkExponential l) x) 0
    (exponential_skewness (mkExponential l) * sqrt (exponential_variance (mkExponential l)) ^ 3).
Proof.
  intros Hl. unfold exponential_mean, exponential_skewness, exponential_variance; cbn [ex_l]. rewrite lit_2.
  replace (of_int 2) with 2 by reflexivity. rops. rewrite R_pow_2.
  replace (sqrt (1 / (l * l))) with (1 / l).
  2:{ rewrite sqrt_div_alt by (apply Rmult_lt_0_compat; lra). rewrite sqrt_1, sqrt_square by lra. reflexivity. }
  apply (exponential_int l (fun x => - ((x - 1 / l) ^ 3 + 3 / l * (x - 1 / l) ^ 2 + 6 / (l * l) * (x - 1 / l) + 6 / (l * l * l)) * exp (- l * x)) (fun x => (x - 1 / l) ^ 3)).
  - intros x. auto_derive; [exact I|]. match goal with |- ?a = ?b => change (@eq R a b) end. field. lra.
  - intros x. apply (ex_derive_continuous (fun x => (x - 1 / l) ^ 3 * (l * exp (- l * x)))). auto_derive. exact I.
  - apply (is_lim_ext (fun t => (- (1) * (t * t * t * exp (- l * t)) + (0 * (t * t * exp (- l * t)) + (- 3 / (l * l) * (t * exp (- l * t)) + - 2 / (l * l * l) * exp (- l * t)))) + 2 / (l * l * l))).
    + intros t. replace (- l * 0) with 0 by ring. rewrite exp_0. match goal with |- ?a = ?b => change (@eq R a b) end. field. lra.
    + replace (Finite (2 * (1 / l) ^ 3)) with (Finite ((- (1) * 0 + (0 * 0 + (- 3 / (l * l) * 0 + - 2 / (l * l * l) * 0))) + 2 / (l * l * l))) by (f_equal; field; lra).
      apply is_lim_plus'; [|apply is_lim_const].
      repeat apply is_lim_plus'; 
      [apply (is_lim_scal_l _ (- (1)) p_infty 0), is_lim_x3exp_neg, Hl
      |apply (is_lim_scal_l _ 0 p_infty 0), is_lim_x2exp_neg, Hl
      |apply (is_lim_scal_l _ (- 3 / (l * l)) p_infty 0), is_lim_xexp_neg, Hl
      |apply (is_lim_scal_l _ (- 2 / (l * l * l)) p_infty 0), is_lim_exp_neg, Hl].
Qed.
Lemma exponential_entropy_ok l : 0 < l ->
  improper_integral (fun x => - ln (exponential_pdf (mkExponential l) x) * exponential_pdf (mkExponential l) x) 0
    (exponential_entropy (mkExponential l)).
Proof.
  intros Hl. unfold exponential_entropy; cbn [ex_l]. rops.
  assert (H : improper_integral (fun x => (- ln l + l * x) * exponential_pdf (mkExponential l) x) 0 (1 - ln l)).
  { apply (exponential_int l (fun x => - (1 - ln l + l * x) * exp (- l * x)) (fun x => - ln l + l * x)).
    - intros x. auto_derive; [exact I|]. match goal with |- ?a = ?b => change (@eq R a b) end. ring.
    - intros x. apply (ex_derive_continuous (fun x => (- ln l + l * x) * (l * exp (- l * x)))). auto_derive. exact I.
    - apply (is_lim_ext (fun t => (- l * (t * exp (- l * t)) + - (1 - ln l) * exp (- l * t)) + (1 - ln l))).
      + intros t. replace (- l * 0) with 0 by ring. rewrite exp_0. match goal with |- ?a = ?b => change (@eq R a b) end. ring.
      + replace (Finite (1 - ln l)) with (Finite ((- l * 0 + - (1 - ln l) * 0) + (1 - ln l))) by (f_equal; ring).
        apply is_lim_plus'; [|apply is_lim_const]. apply is_lim_plus';
        [apply (is_lim_scal_l _ (- l) p_infty 0), is_lim_xexp_neg, Hl|apply (is_lim_scal_l _ (- (1 - ln l)) p_infty 0), is_lim_exp_neg, Hl]. }
  assert (E : forall x, 0 <= x -> (- ln l + l * x) * exponential_pdf (mkExponential l) x
            = - ln (exponential_pdf (mkExponential l) x) * exponential_pdf (mkExponential l) x).
  { intros x Hx. rewrite exponential_pdf_pos by assumption. rewrite ln_mult, ln_exp by (assumption || apply exp_pos). ring. }
  destruct H as [H1 H2]. split.
  - intros b Hb. apply (ex_RInt_ext (fun x => (- ln l + l * x) * exponential_pdf (mkExponential l) x)); [|apply H1; assumption].
    intros x Hx. rewrite Rmin_left, Rmax_right in Hx by assumption. apply E. lra.
  - apply (is_lim_ext_loc (fun b => RInt (fun x => (- ln l + l * x) * exponential_pdf (mkExponential l) x) 0 b)); [|exact H2].
    exists 0. intros b Hb. apply RInt_ext. intros x Hx. rewrite Rmin_left, Rmax_right in Hx by lra. apply E. lra.
Qed.
Lemma exponential_from_data_ok data : 0 < sumR data ->
  exists d, exponential_from_data data = Ret d /\ exponential_mean d = avg data.
Proof.
  intros H. assert (L : (0 < length data)%nat). { destruct data; [cbn in H; lra|cbn; lia]. }
  assert (P : 0 < avg data). { unfold avg. apply Rdiv_lt_0_compat; [assumption|]. apply lt_0_INR. assumption. }
  exists (mkExponential (1 / avg data)). unfold exponential_from_data. rewrite calc_mean_avg. rops. split.
  - apply exponential_new_iff. apply Rdiv_lt_0_compat; lra.
  - unfold exponential_mean; cbn [ex_l]. rops. field. lra.
Qed.
Lemma exponential_from_data_panic data : (1 <= length data)%nat -> sumR data < 0 -> exponential_from_data data = Panic.
Proof.
  intros L H. unfold exponential_from_data. rewrite calc_mean_avg. rops. apply exponential_new_panic.
  assert (N : 0 < INR (length data)) by (apply lt_0_INR; lia). unfold avg, Rdiv.
  rewrite Rmult_1_l. rewrite Rinv_mult. apply Rlt_le. rewrite Rinv_inv.
  assert (/ sumR data < 0) by (apply Rinv_lt_0_compat; assumption). nra.
Qed.

(** ** Moments of the normal law *)
Definition ge (k : nat) (z : R) : R := z ^ k * exp (- (z * z) / 2).
Lemma ge_lim_p k : (k <= 2)%nat -> is_lim (ge k) p_infty 0.
Proof.
  intros Hk. apply (is_lim_le_le_loc (fun _ => 0) (fun z => z ^ k * exp (- (1 / 2) * z))).
  - exists 1. intros z Hz. assert (0 < z ^ k) by (apply pow_lt; lra). unfold ge. split.
    + apply Rmult_le_pos; [lra|]. apply Rlt_le, exp_pos.
    + apply Rmult_le_compat_l; [lra|]. apply Rlt_le, exp_increasing. nra.
  - apply is_lim_const.
  - destruct k as [|[|[|k]]]; [| | |lia].
    + apply (is_lim_ext (fun z => exp (- (1 / 2) * z))); [intros; cbn [pow]; symmetry; apply Rmult_1_l|]. apply is_lim_exp_neg. lra.
    + apply (is_lim_ext (fun z => z * exp (- (1 / 2) * z))); [intros; rewrite pow_1; reflexivity|]. apply is_lim_xexp_neg. lra.
    + apply (is_lim_ext (fun z => z * z * exp (- (1 / 2) * z))); [intros; cbn [pow]; rewrite Rmult_1_r; reflexivity|]. apply is_lim_x2exp_neg. lra.
Qed.
Lemma ge_sym k z : ge k (- z) = (-1) ^ k * ge k z.
Proof.
  unfold ge. replace (- z * - z) with (z * z) by ring. replace (- z) with (-1 * z) by ring. rewrite Rpow_mult_distr. ring.
Qed.
Lemma is_lim_opp_m : is_lim (fun x : R => - x) m_infty p_infty.
Proof. replace p_infty with (Rbar_opp m_infty) by reflexivity. apply (is_lim_opp (fun x => x) m_infty m_infty). apply is_lim_id. Qed.
Lemma ge_lim_m k : (k <= 2)%nat -> is_lim (ge k) m_infty 0.
Proof.
  intros Hk. apply (is_lim_ext (fun z => (-1) ^ k * ge k (- z))).
  - intros z. rewrite ge_sym, <- Rmult_assoc, <- Rpow_mult_distr. replace (-1 * -1) with 1 by ring. rewrite pow1. apply Rmult_1_l.
  - replace (Finite 0) with (Rbar_mult ((-1) ^ k) 0) by (cbn; f_equal; ring). apply is_lim_scal_l.
    apply (is_lim_comp (ge k) (fun z => - z) m_infty 0 p_infty); [apply ge_lim_p; assumption|apply is_lim_opp_m|exists 0; intros; discriminate].
Qed.
Section NormalMoments.
Variables m v : R.
Hypothesis Hv : 0 < v.
Lemma gauss_ge k x : (x - m) ^ k * gauss m v x = sqrt v ^ k * / sqrt (2 * PI * v) * ge k ((x - m) / sqrt v).
Proof.
  unfold gauss, ge. assert (0 < sqrt v) by (apply sqrt_lt_R0; assumption).
  replace (- ((x - m) / sqrt v * ((x - m) / sqrt v)) / 2) with (- ((x - m) * (x - m)) / (2 * v)).
  - replace (x - m) with (sqrt v * ((x - m) / sqrt v)) at 1 by (field; lra). rewrite Rpow_mult_distr. ring.
  - rewrite <- (sqrt_sqrt v) at 1 by lra. field. lra.
Qed.
Lemma gauss_lim_p k : (k <= 2)%nat -> is_lim (fun x => (x - m) ^ k * gauss m v x) p_infty 0.
Proof.
  intros Hk. apply (is_lim_ext (fun x => sqrt v ^ k * / sqrt (2 * PI * v) * ge k ((x - m) / sqrt v))); [intros; symmetry; apply gauss_ge|].
  replace (Finite 0) with (Rbar_mult (sqrt v ^ k * / sqrt (2 * PI * v)) 0) by (cbn; f_equal; ring). apply is_lim_scal_l.
  apply (is_lim_comp (ge k) (fun x => (x - m) / sqrt v) p_infty 0 p_infty); [apply ge_lim_p; assumption|apply lin_lim_p; assumption|exists 0; intros; discriminate].
Qed.
Lemma gauss_lim_m k : (k <= 2)%nat -> is_lim (fun x => (x - m) ^ k * gauss m v x) m_infty 0.
Proof.
  intros Hk. apply (is_lim_ext (fun x => sqrt v ^ k * / sqrt (2 * PI * v) * ge k ((x - m) / sqrt v))); [intros; symmetry; apply gauss_ge|].
  replace (Finite 0) with (Rbar_mult (sqrt v ^ k * / sqrt (2 * PI * v)) 0) by (cbn; f_equal; ring). apply is_lim_scal_l.
  apply (is_lim_comp (ge k) (fun x => (x - m) / sqrt v) m_infty 0 m_infty); [apply ge_lim_m; assumption|apply lin_lim_m; assumption|exists 0; intros; discriminate].
Qed.
Lemma gauss_derive x : is_derive (gauss m v) x (- (x - m) / v * gauss m v x).
Proof.
  unfold gauss. set (c := / sqrt (2 * PI * v)).
  replace (- (x - m) / v * (c * exp (- ((x - m) * (x - m)) / (2 * v)))) with
    (c * (- (x - m) / v * exp (- ((x - m) * (x - m)) / (2 * v)))) by ring.
  apply (is_derive_scal (fun x => exp (- ((x - m) * (x - m)) / (2 * v))) x c).
  apply (is_derive_comp exp (fun x => - ((x - m) * (x - m)) / (2 * v)) x); [apply is_derive_exp|].
  auto_derive; [exact I|]. match goal with |- ?a = ?b => change (@eq R a b) end. field. lra.
Qed.
Lemma normal_F_lims : is_lim (normal_F m v) m_infty 0 /\ is_lim (normal_F m v) p_infty 1.
Proof. destruct (normal_F_is_cdf m v Hv) as [_ [A B]]. auto. Qed.
Lemma gauss_mean : integral_line (fun x => x * gauss m v x) m.
Proof.
  destruct normal_F_lims as [L0 L1].
  exists (fun x => m * normal_F m v x + - v * ((x - m) ^ 0 * gauss m v x)), 0. split; [|split].
  - intros x. replace (x * gauss m v x) with (m * gauss m v x + - v * (- (x - m) / v * gauss m v x)) by (field; lra).
    apply (is_derive_plus (fun x => m * normal_F m v x) (fun x => - v * ((x - m) ^ 0 * gauss m v x))).
    + apply is_derive_scal. apply normal_F_derive. assumption.
    + apply is_derive_scal. apply (is_derive_ext (gauss m v)); [intros; cbn [pow]; symmetry; apply Rmult_1_l|]. apply gauss_derive.
  - replace (Finite 0) with (Finite (m * 0 + - v * 0)) by (f_equal; ring).
    apply is_lim_plus'; [apply (is_lim_scal_l _ m m_infty 0); assumption|apply (is_lim_scal_l _ (- v) m_infty 0), gauss_lim_m; lia].
  - replace (Finite (0 + m)) with (Finite (m * 1 + - v * 0)) by (f_equal; ring).
    apply is_lim_plus'; [apply (is_lim_scal_l _ m p_infty 1); assumption|apply (is_lim_scal_l _ (- v) p_infty 0), gauss_lim_p; lia].
Qed.
Lemma pow_gauss_derive k x : is_derive (fun x => (x - m) ^ S k * gauss m v x) x
  (INR (S k) * (x - m) ^ k * gauss m v x + (x - m) ^ S k * (- (x - m) / v * gauss m v x)).
Proof.
  apply (is_derive_mult (fun x => (x - m) ^ S k) (gauss m v)); [|apply gauss_derive|intros; apply Rmult_comm].
  replace (INR (S k) * (x - m) ^ k) with (INR (S k) * 1 * (x - m) ^ Nat.pred (S k)) by (cbn [Nat.pred]; ring).
  apply (is_derive_pow (fun x => x - m) (S k) x 1). der. ring.
Qed.
Lemma gauss_variance : integral_line (fun x => (x - m) ^ 2 * gauss m v x) v.
Proof.
  destruct normal_F_lims as [L0 L1].
  exists (fun x => v * normal_F m v x + - v * ((x - m) ^ 1 * gauss m v x)), 0. split; [|split].
  - intros x. replace ((x - m) ^ 2 * gauss m v x) with (v * gauss m v x + - v * (INR 1 * (x - m) ^ 0 * gauss m v x + (x - m) ^ 1 * (- (x - m) / v * gauss m v x))) by (cbn; field; lra).
    apply (is_derive_plus (fun x => v * normal_F m v x) (fun x => - v * ((x - m) ^ 1 * gauss m v x))).
    + apply is_derive_scal. apply normal_F_derive. assumption.
    + apply is_derive_scal. apply pow_gauss_derive.
  - replace (Finite 0) with (Finite (v * 0 + - v * 0)) by (f_equal; ring).
    apply is_lim_plus'; [apply (is_lim_scal_l _ v m_infty 0); assumption|apply (is_lim_scal_l _ (- v) m_infty 0), gauss_lim_m; lia].
  - replace (Finite (0 + v)) with (Finite (v * 1 + - v * 0)) by (f_equal; ring).
    apply is_lim_plus'; [apply (is_lim_scal_l _ v p_infty 1); assumption|apply (is_lim_scal_l _ (- v) p_infty 0), gauss_lim_p; lia].
Qed.
Lemma gauss_third : integral_line (fun x => (x - m) ^ 3 * gauss m v x) 0.
Proof.
  exists (fun x => - v * ((x - m) ^ 2 * gauss m v x) + - 2 * (v * v) * ((x - m) ^ 0 * gauss m v x)), 0. split; [|split].
  - intros x. replace ((x - m) ^ 3 * gauss m v x) with
      (- v * (INR 2 * (x - m) ^ 1 * gauss m v x + (x - m) ^ 2 * (- (x - m) / v * gauss m v x)) + - 2 * (v * v) * (- (x - m) / v * gauss m v x)) by (cbn; field; lra).
    apply (is_derive_plus (fun x => - v * ((x - m) ^ 2 * gauss m v x)) (fun x => - 2 * (v * v) * ((x - m) ^ 0 * gauss m v x))).
    + apply is_derive_scal. apply pow_gauss_derive.
    + apply is_derive_scal. apply (is_derive_ext (gauss m v)); [intros; cbn [pow]; symmetry; apply Rmult_1_l|]. apply gauss_derive.
  - replace (Finite 0) with (Finite (- v * 0 + - 2 * (v * v) * 0)) by (f_equal; ring).
    apply is_lim_plus'; [apply (is_lim_scal_l _ (- v) m_infty 0)|apply (is_lim_scal_l _ (- 2 * (v * v)) m_infty 0)]; apply gauss_lim_m; lia.
  - replace (Finite (0 + 0)) with (Finite (- v * 0 + - 2 * (v * v) * 0)) by (f_equal; ring).
    apply is_lim_plus'; [apply (is_lim_scal_l _ (- v) p_infty 0)|apply (is_lim_scal_l _ (- 2 * (v * v)) p_infty 0)]; apply gauss_lim_p; lia.
Qed.
End NormalMoments.

(** ** Log-normal: third moment, quantile *)
Section LN.
Variables m v : R.
Hypothesis Hv : 0 < v.
Let d := mkLogNormal m v.
Lemma log_normal_skew_ok :
  integral_pos (fun x => (x - log_normal_mean d) ^ 3 * log_normal_pdf d x)
    (log_normal_skewness d * sqrt (log_normal_variance d) ^ 3).
Proof.
  assert (W : 1 < exp v) by (rewrite <- exp_0; apply exp_increasing; assumption).
  set (w := exp v) in *. set (M := exp (m + v / 2)).
  assert (PM : 0 < M) by apply exp_pos.
  assert (E2 : forall k, exp (INR k * m + INR k * INR k * v / 2) = M ^ k * exp (v / 2 * (INR k * INR k - INR k))).
  { intros k. unfold M. rewrite <- Rpower_pow by apply exp_pos. unfold Rpower. rewrite ln_exp, <- exp_plus. f_equal. field. }
  assert (X1 : exp (INR 1 * m + INR 1 * INR 1 * v / 2) = M) by (unfold M; cbn; f_equal; field).
  assert (X2 : exp (INR 2 * m + INR 2 * INR 2 * v / 2) = M ^ 2 * w).
  { rewrite E2. f_equal. unfold w. f_equal. cbn. field. }
  assert (X3 : exp (INR 3 * m + INR 3 * INR 3 * v / 2) = M ^ 3 * w ^ 3).
  { rewrite E2. f_equal. unfold w. rewrite <- (Rpower_pow 3) by apply exp_pos. unfold Rpower. rewrite ln_exp. f_equal. cbn. field. }
  assert (X0 : exp (INR 0 * m + INR 0 * INR 0 * v / 2) = 1) by (cbn [INR]; replace (0 * m + 0 * 0 * v / 2) with 0 by field; apply exp_0).
  assert (Mean : log_normal_mean d = M) by (unfold log_normal_mean, d; cbn [ln_mu ln_s2]; rewrite lit_2; reflexivity).
  assert (Var : log_normal_variance d = (w - 1) * (M * M)).
  { unfold log_normal_variance, d; cbn [ln_mu ln_s2]. rewrite lit_2. rops. unfold w, M. rewrite <- exp_plus. do 2 f_equal. field. }
  assert (Sk : log_normal_skewness d = (w + 2) * sqrt (w - 1)).
  { unfold log_normal_skewness, d; cbn [ln_mu ln_s2]. rewrite lit_2. reflexivity. }
  rewrite Mean, Var, Sk. rewrite sqrt_mult_alt, sqrt_square by lra.
  assert (Q : sqrt (w - 1) * sqrt (w - 1) = w - 1) by (apply sqrt_sqrt; lra).
  pose proof (log_normal_moment m v Hv 0) as I0. pose proof (log_normal_moment m v Hv 1) as I1.
  pose proof (log_normal_moment m v Hv 2) as I2. pose proof (log_normal_moment m v Hv 3) as I3.
  rewrite X0 in I0. rewrite X1 in I1. rewrite X2 in I2. rewrite X3 in I3.
  eapply integral_pos_ext; [| |exact (integral_pos_lin _ _ _ _ (- M ^ 3) (integral_pos_lin _ _ _ _ (3 * M ^ 2) (integral_pos_lin _ _ _ _ (- 3 * M) I3 I2) I1) I0)].
  - intros x Hx. fold d. cbn [pow]. ring.
  - replace ((w + 2) * sqrt (w - 1) * (sqrt (w - 1) * M) ^ 3) with
      ((w + 2) * (sqrt (w - 1) * sqrt (w - 1)) * (sqrt (w - 1) * sqrt (w - 1)) * M ^ 3) by ring.
    rewrite Q. ring.
Qed.
Lemma log_normal_quantile_eq p : 0 < p < 1 -> log_normal_quantile d p = Ret (exp (m + sqrt v * zq p)).
Proof.
  intros Hp. unfold log_normal_quantile, d; cbn [ln_mu ln_s2]. rb. rops. repeat rcase; try lra.
  assert (N : normal_new 0 1 = Ret (mkNormal 0 1)) by (apply normal_new_iff; lra).
  change (normal_new 0 1) with (normal_new (T := R) 0 1). rewrite N. cbn [bind].
  rewrite normal_quantile_eq by assumption. cbn [bind no_mean no_var]. rewrite sqrt_1. do 3 f_equal. ring.
Qed.
Lemma log_normal_quantile_sym p a b : 0 < p < 1 -> log_normal_quantile d p = Ret a -> log_normal_quantile d (1 - p) = Ret b ->
  a * b = exp (2 * m) /\ 0 < a.
Proof.
  intros Hp. rewrite !log_normal_quantile_eq by lra. rewrite zq_sym by assumption. intros A B. injection A as <-. injection B as <-.
  split; [|apply exp_pos]. rewrite <- exp_plus. f_equal. ring.
Qed.
Lemma log_normal_quantile_half : log_normal_quantile d (1 / 2) = Ret (log_normal_median d).
Proof.
  rewrite log_normal_quantile_eq by lra. rewrite zq_half. unfold log_normal_median, d; cbn [ln_mu]. rops. do 2 f_equal. ring.
Qed.
Lemma log_normal_quantile_panic p : ~ (0 < p < 1) -> log_normal_quantile d p = Panic.
Proof. intros Hp. unfold log_normal_quantile. rb. rops. repeat rcase; try reflexivity. exfalso. lra. Qed.
End LN.

(** ** Beta: third moment *)
Section BetaSkew.
Variables p q b : R.
Hypothesis Hp : 0 < p.
Hypothesis Hq : 0 < q.
Hypothesis Hb : euler_beta p q b.
Let Pb := euler_beta_pos p q b Hb.
Lemma bpdf_m3 : integral_01 (fun x => x * x * x * bpdf p q b x) (p * (p + 1) * (p + 2) / ((p + q) * (p + q + 1) * (p + q + 2))).
Proof.
  apply (integral_01_ext (fun x => / b * (Rpower x (p + 1 + 1 + 1 - 1) * Rpower (1 - x) (q - 1))) _
     (/ b * ((p + 1 + 1) / (p + 1 + 1 + q) * ((p + 1) / (p + 1 + q) * (p / (p + q) * b)))) _).
  - intros x Hx. unfold bpdf. replace (p + 1 + 1 + 1 - 1) with (p + 1 + 1) by ring. rewrite (Rpower_pred x (p + 1 + 1)) by lra.
    replace (p + 1 + 1 - 1) with (p + 1) by ring. rewrite (Rpower_pred x (p + 1)) by lra.
    replace (p + 1 - 1) with p by ring. rewrite (Rpower_pred x p) by lra. field. lra.
  - field. repeat split; lra.
  - apply integral_01_scal. repeat (apply euler_beta_S; try lra). exact Hb.
Qed.
Lemma beta_variance_eq : beta_variance (mkBeta p q) = p * q / ((p + q + 1) * ((p + q) * (p + q))).
Proof. unfold beta_variance; cbn [be_p be_q]. rewrite lit_2. rops. rewrite R_pow_2. reflexivity. Qed.
Lemma beta_skew_ok : integral_01 (fun x => (x - beta_mean (mkBeta p q)) ^ 3 * bpdf p q b x)
   (beta_skewness (mkBeta p q) * sqrt (beta_variance (mkBeta p q)) ^ 3).
Proof.
  rewrite beta_variance_eq. unfold beta_mean, beta_skewness; cbn [be_p be_q]. rewrite !lit_2. rops.
  assert (PQ : 0 < p * q) by (apply Rmult_lt_0_compat; assumption).
  assert (S1 : 0 < sqrt (p * q)) by (apply sqrt_lt_R0; assumption).
  assert (S2 : 0 < sqrt (p + q + 1)) by (apply sqrt_lt_R0; lra).
  assert (Q1 : sqrt (p * q) * sqrt (p * q) = p * q) by (apply sqrt_sqrt; lra).
  assert (Q2 : sqrt (p + q + 1) * sqrt (p + q + 1) = p + q + 1) by (apply sqrt_sqrt; lra).
  rewrite sqrt_div_alt by (apply Rmult_lt_0_compat; nra). rewrite (sqrt_mult_alt (p + q + 1)), sqrt_square by lra.
  rewrite (Rmult_comm q p).
  apply (integral_01_ext (fun x => ((x * x * x * bpdf p q b x + - 3 * (p / (p + q)) * (x * x * bpdf p q b x))
       + 3 * (p / (p + q) * (p / (p + q))) * (x * bpdf p q b x)) + - (p / (p + q) * (p / (p + q)) * (p / (p + q))) * bpdf p q b x)
     _ (p * (p + 1) * (p + 2) / ((p + q) * (p + q + 1) * (p + q + 2)) + - 3 * (p / (p + q)) * (p * (p + 1) / ((p + q) * (p + q + 1)))
        + 3 * (p / (p + q) * (p / (p + q))) * (p / (p + q)) + - (p / (p + q) * (p / (p + q)) * (p / (p + q))) * 1) _).
  - intros. ring.
  - set (s1 := sqrt (p * q)) in *. set (s2 := sqrt (p + q + 1)) in *.
    transitivity (2 * (q - p) * (s1 * s1) / ((p + q + 2) * (s2 * s2) * (p + q) ^ 3)).
    + rewrite Q1, Q2. field. repeat split; lra.
    + field. repeat split; lra.
  - apply integral_01_lin; [apply integral_01_lin; [apply integral_01_lin; [apply bpdf_m3|apply bpdf_m2; assumption]|apply bpdf_m1; assumption]|apply bpdf_total; assumption].
Qed.
End BetaSkew.

(** ** Gamma and chi-square: skewness *)
Lemma gammad_skew_val a b : 0 < a -> 0 < b ->
  gammad_skewness (mkGammaD a b) * sqrt (gammad_variance (mkGammaD a b)) ^ 3 = 2 * a / (b * b * b).
Proof.
  intros Ha Hb. unfold gammad_skewness, gammad_variance; cbn [gd_a gd_b]. rewrite !lit_2. rops. rewrite R_pow_2.
  rewrite sqrt_div_alt by (apply Rmult_lt_0_compat; assumption). rewrite sqrt_square by lra.
  assert (S1 : 0 < sqrt a) by (apply sqrt_lt_R0; assumption). assert (Q1 : sqrt a * sqrt a = a) by (apply sqrt_sqrt; lra).
  transitivity (2 * (sqrt a * sqrt a) / (b * b * b)); [field; lra|rewrite Q1; reflexivity].
Qed.
Lemma gammad_variance_eq a b : gammad_variance (mkGammaD a b) = a / (b * b).
Proof. unfold gammad_variance; cbn [gd_a gd_b]. rewrite !lit_2. rops. rewrite R_pow_2. reflexivity. Qed.
Lemma chi_skew_val k : 0 < k -> chi_skewness (mkChi k) * sqrt (chi_variance (mkChi k)) ^ 3 = 8 * k.
Proof.
  intros Hk. unfold chi_skewness, chi_variance; cbn [cs_k]. rewrite !lit_2, lit_R. rops. replace (8 / 1 / k) with (8 / k) by (field; lra).
  assert (P : 0 < 8 / k) by (apply Rdiv_lt_0_compat; lra).
  assert (S : sqrt (8 / k) * sqrt (2 * k) = 4).
  { rewrite <- sqrt_mult by lra. replace (8 / k * (2 * k)) with (4 * 4) by (field; lra). apply sqrt_square. lra. }
  cbn [pow]. rewrite Rmult_1_r, <- !Rmult_assoc, S. replace (4 * sqrt (2 * k) * sqrt (2 * k)) with (4 * (sqrt (2 * k) * sqrt (2 * k))) by ring.
  rewrite sqrt_sqrt by lra. ring.
Qed.

(** ** Normal and log-normal with the error function of the crate *)
Lemma normal_cdf_sym_impl fuel m v t c : 
  normal_cdf (Sp := impl_special fuel) (mkNormal m v) (m + t) = Ret c ->
  normal_cdf (Sp := impl_special fuel) (mkNormal m v) (m - t) = Ret (1 - c).
Proof.
  unfold normal_cdf; cbn [no_mean no_var x_erf impl_special]. rewrite !lit_2, !lit_half. rops.
  replace ((m + t - m) / sqrt (2 * v)) with (t / sqrt (2 * v)) by (f_equal; ring).
  replace ((m - t - m) / sqrt (2 * v)) with (- (t / sqrt (2 * v))) by (unfold Rdiv; ring).
  destruct (serf fuel (t / sqrt (2 * v))) as [[e|]|] eqn:E; cbn [defuel bind]; try discriminate.
  apply serf_odd in E. rewrite E. cbn [defuel bind]. intros H. apply Ret_inj in H. subst c. f_equal. lra.
Qed.
Lemma normal_cdf_mean_impl fuel m v : normal_cdf (Sp := impl_special fuel) (mkNormal m v) m = Ret (1 / 2).
Proof.
  unfold normal_cdf; cbn [no_mean no_var x_erf impl_special]. rewrite !lit_2, !lit_half. rops.
  replace ((m - m) / sqrt (2 * v)) with 0 by (unfold Rdiv; ring). rewrite serf_0. cbn [defuel bind]. f_equal. lra.
Qed.
Lemma normal_cdf_total_impl m v x : exists fuel c, normal_cdf (Sp := impl_special fuel) (mkNormal m v) x = Ret c.
Proof.
  unfold normal_cdf; cbn [no_mean no_var x_erf impl_special]. destruct (serf_total ((x - m) / sqrt (lit 2 1 * v))) as (k & e & E).
  exists k. rops. rewrite E. cbn [defuel bind]. eexists. reflexivity.
Qed.
Lemma log_normal_cdf_median_impl fuel m v :
  log_normal_cdf (Sp := impl_special fuel) (mkLogNormal m v) (log_normal_median (mkLogNormal m v)) = Ret (1 / 2).
Proof.
  unfold log_normal_cdf, log_normal_median; cbn [ln_mu ln_s2 x_erf impl_special]. rb. rops. pose proof (exp_pos m). rcase; [lra|].
  rewrite ln_exp, lit_2, !lit_half. rops. replace ((m - m) / sqrt (2 * v)) with 0 by (unfold Rdiv; ring). rewrite serf_0. cbn [defuel bind]. f_equal. lra.
Qed.

(** ** Random numbers of the polar method *)
Lemma normal_random_step m v u1 u2 us : let v1 := 2 * u1 - 1 in let v2 := 2 * u2 - 1 in let s := v1 * v1 + v2 * v2 in
  normal_random (mkNormal m v) ((u1, u2) :: us) =
  if Rle_dec 1 s then normal_random (mkNormal m v) us else Some (v1 * sqrt (- (2) * ln s / s) * sqrt v + m).
Proof.
  cbv zeta. cbn [normal_random no_mean no_var]. rewrite !lit_2. rb. rops. repeat rcase; try lra; reflexivity.
Qed.
Definition mirror (us : list (R * R)) : list (R * R) := map (fun u : R * R => (1 - fst u, snd u)) us.
Lemma normal_random_mirror m v us x : normal_random (mkNormal m v) us = Some x ->
  normal_random (mkNormal m v) (mirror us) = Some (2 * m - x).
Proof.
  induction us as [|[u1 u2] us IH]; [discriminate|]. unfold mirror. cbn [map fst snd]. fold (mirror us).
  rewrite !normal_random_step.
  replace ((2 * (1 - u1) - 1) * (2 * (1 - u1) - 1)) with ((2 * u1 - 1) * (2 * u1 - 1)) by ring.
  destruct (Rle_dec _ _); [exact IH|]. intros H. injection H as <-. f_equal. ring.
Qed.
Lemma normal_random_polar u1 u2 us us' m v x y : 0 < v -> let s := (2 * u1 - 1) ^ 2 + (2 * u2 - 1) ^ 2 in 0 < s < 1 ->
  normal_random (mkNormal m v) ((u1, u2) :: us) = Some x -> normal_random (mkNormal m v) ((u2, u1) :: us') = Some y ->
  ((x - m) ^ 2 + (y - m) ^ 2) / v = - 2 * ln s.
Proof.
  intros Hv s Hs. rewrite !normal_random_step.
  replace ((2 * u1 - 1) * (2 * u1 - 1) + (2 * u2 - 1) * (2 * u2 - 1)) with s by (unfold s; ring).
  replace ((2 * u2 - 1) * (2 * u2 - 1) + (2 * u1 - 1) * (2 * u1 - 1)) with s by (unfold s; ring).
  destruct (Rle_dec 1 s); [lra|]. intros X Y. injection X as <-. injection Y as <-.
  assert (L : ln s < 0) by (rewrite <- ln_1; apply ln_increasing; lra).
  assert (P : 0 <= - 2 * ln s / s) by (apply Rle_div_r; lra).
  set (r := sqrt (- (2) * ln s / s)). assert (Q : r * r = - 2 * ln s / s) by (apply sqrt_sqrt; assumption).
  assert (Qv : sqrt v * sqrt v = v) by (apply sqrt_sqrt; lra).
  transitivity (s * (r * r) * (sqrt v * sqrt v) / v); [unfold s; field; lra|]. rewrite Q, Qv. field. lra.
Qed.

(** ** Bounds on e *)
Lemma exp_low x n : (0 < n)%nat -> 0 <= 1 + x / INR n -> (1 + x / INR n) ^ n <= exp x.
Proof.
  intros Hn Hx. assert (P : 0 < INR n) by (apply lt_0_INR; assumption).
  replace (exp x) with (exp (x / INR n) ^ n).
  - apply pow_incr. split; [assumption|]. destruct (Req_dec (x / INR n) 0) as [->|N]; [rewrite exp_0; lra|]. apply Rlt_le, exp_ineq1. assumption.
  - rewrite <- Rpower_pow by apply exp_pos. unfold Rpower. rewrite ln_exp. f_equal. field. lra.
Qed.
Lemma e_low : 5 / 2 < exp 1.
Proof. apply Rlt_le_trans with ((1 + 1 / INR 8) ^ 8); [cbn; lra|]. apply exp_low; [lia|cbn; lra]. Qed.

(** ** Chi-square with two degrees of freedom, as implemented *)
Lemma chi2_cdf_impl fuel x : chi_cdf (Sp := impl_special fuel) (mkChi 2) x = Ret (1 - exp (- (x / 2)) * (/ lanczos 1)).
Proof.
  unfold chi_cdf; cbn [cs_k x_gamma impl_special]. rewrite !lit_2.
  rewrite (as_u32_trunc 2 2) by (cbn; lia || lra). replace (div 2 2) with 1 by (rops; field).
  rewrite (as_u32_trunc 1 1) by (cbn; lia || lra).
  change (Z.of_nat 2 mod 2 =? 0)%Z with true. change (Z.to_nat (Z.of_nat 1)) with 1%nat.
  rewrite (loop_sum (fun i => / lanczos 1)).
  - cbn [bind]. apply f_equal. cbn [sumn]. rops. replace (- x / 2) with (- (x / 2)) by lra. ring.
  - intros i s Hi. assert (i = 0)%nat by lia. subst i. rewrite !of_u_R. cbn [INR]. rewrite sgamma_ge by lra. cbn [bind]. rops.
    f_equal. replace (INR 0) with 0 by reflexivity. unfold R_pow. destruct (Req_EM_T 0 0); [|lra]. unfold Rdiv. rewrite Rmult_1_l. reflexivity.
Qed.
Lemma lanczos_sum_1 : lanczos_sum 1 < 264.
Proof. rewrite lanczos_sum_num by lra. unfold lz_num. lra. Qed.
Lemma lanczos_1 : lanczos 1 = sqrt (15 * PI) * lanczos_sum 1 * exp (- (15 / 2)).
Proof.
  unfold lanczos. rewrite !lit_half', !lit_R. rops.
  replace (1 + 13 / 2) with (15 / 2) by lra. replace (1 - 1 / 2) with (/ 2) by lra.
  rewrite R_pow_pos by lra. rewrite Rpower_sqrt by lra. replace (2 / 1) with 2 by field.
  pose proof PI_RGT_0. rewrite <- !sqrt_mult by lra. replace (2 * PI * (15 / 2)) with (15 * PI) by field. ring.
Qed.
Lemma lanczos_1_lt_e : lanczos 1 < exp 1.
Proof.
  rewrite lanczos_1. pose proof (lanczos_sum_pos 1 ltac:(lra)) as LP. pose proof lanczos_sum_1 as LS. pose proof PI_RGT_0 as P0. pose proof PI_4 as P4.
  assert (E17 : 5820000 < exp (17 / 2) * exp (17 / 2)).
  { rewrite <- exp_plus. replace (17 / 2 + 17 / 2) with 17 by field.
    replace (exp 17) with (exp 1 ^ 17) by (rewrite <- Rpower_pow by apply exp_pos; unfold Rpower; rewrite ln_exp; f_equal; cbn; ring).
    apply Rlt_le_trans with ((5 / 2) ^ 17); [cbn; lra|]. apply pow_incr. pose proof e_low. lra. }
  assert (B : sqrt (15 * PI) * lanczos_sum 1 < exp (17 / 2)).
  { assert (S0 : 0 < sqrt (15 * PI)) by (apply sqrt_lt_R0; lra). assert (SS : sqrt (15 * PI) * sqrt (15 * PI) = 15 * PI) by (apply sqrt_sqrt; lra).
    pose proof (exp_pos (17 / 2)) as X. set (a := sqrt (15 * PI) * lanczos_sum 1). set (b := exp (17 / 2)) in *.
    assert (AA : a * a < b * b).
    { apply Rle_lt_trans with (60 * (264 * 264)); [|lra].
      replace (a * a) with (sqrt (15 * PI) * sqrt (15 * PI) * (lanczos_sum 1 * lanczos_sum 1)) by (unfold a; ring). rewrite SS.
      apply Rmult_le_compat; [lra|nra|lra|nra]. }
    assert (0 < a) by (apply Rmult_lt_0_compat; assumption). nra. }
  replace (exp 1) with (exp (17 / 2) * exp (- (15 / 2))) by (rewrite <- exp_plus; f_equal; lra).
  apply Rmult_lt_compat_r; [apply exp_pos|exact B].
Qed.
Lemma chi2_negative_impl fuel : exists c, chi_cdf (Sp := impl_special fuel) (mkChi 2) (-2) = Ret c /\ c < 0.
Proof.
  exists (1 - exp (- (-2 / 2)) * / lanczos 1). split; [apply chi2_cdf_impl|]. replace (- (-2 / 2)) with 1 by field.
  pose proof (lanczos_pos 1 ltac:(lra)) as P. pose proof lanczos_1_lt_e as L.
  assert (1 < exp 1 * / lanczos 1); [|lra]. apply Rmult_lt_reg_r with (lanczos 1); [assumption|]. rewrite Rmult_1_l, Rmult_assoc, Rinv_l, Rmult_1_r by lra. assumption.
Qed.
Lemma chi2_median_wrong : 1 / 2 < chiE 0 (chi_median (mkChi 2) / 2).
Proof.
  unfold chi_median; cbn [cs_k]. rewrite lit_R. rops. unfold chiE. cbn [sumn fact INR pow]. rops.
  replace (2 * (1 - 2 / 9 / 2) * (1 - 2 / 9 / 2) * (1 - 2 / 9 / 2) / 2) with (512 / 729) by field.
  replace (0 + 1 / 1) with 1 by field. rewrite Rmult_1_r.
  assert (H : 2 < exp (512 / 729)).
  { apply Rlt_le_trans with ((1 + 512 / 729 / INR 64) ^ 64); [|apply exp_low; [lia|cbn; lra]].
    replace (INR 64) with 64 by (rewrite INR_IZR_INZ; reflexivity).
    replace (1 + 512 / 729 / 64) with (737 / 729) by field.
    apply Rlt_le_trans with ((101 / 100) ^ 64 * (737 * 100 / (729 * 101)) ^ 64); [|right; rewrite <- Rpow_mult_distr; f_equal; field].
    cbn. lra. }
  rewrite exp_Ropp. assert (/ exp (512 / 729) < / 2); [|lra]. apply Rinv_lt_contravar; lra.
Qed.

(** ** Inverse of the lower regularised gamma function at a = 1 *)
Lemma gamma_lr_inv_1 fuel q : sgamma_lr_inv fuel 1 q = Ret (Some (1 + ln q)).
Proof.
  unfold sgamma_lr_inv, sgamma_ur_inv. rb. rops. rcase; [|lra]. cbn [obind]. do 2 f_equal. ring.
Qed.
Lemma gamma_lr_inv_wrong F q : 0 < q < 1 -> is_gamma_lr 1 F -> ~ (0 < 1 + ln q /\ F (1 + ln q) = q).
Proof.
  intros Hq HF [H1 H2]. rewrite (is_gamma_lr_unique 1 F (fun y => 1 - exp (- y)) HF (glr_is _ _ _ glr_1)) in H2 by assumption.
  rewrite exp_Ropp, exp_plus, exp_ln in H2 by lra. pose proof exp_le_3 as E3. pose proof (exp_pos 1) as E0.
  assert (H : / (exp 1 * q) = 1 - q) by lra.
  assert (K : 1 = (1 - q) * (exp 1 * q)). { rewrite <- H. rewrite Rinv_l; [reflexivity|]. apply Rgt_not_eq. apply Rmult_lt_0_compat; lra. }
  pose proof (Rle_0_sqr (q - 1 / 2)) as SQ. unfold Rsqr in SQ.
  assert (exp 1 * (q * (1 - q)) <= 3 * (1 / 4)); [|lra].
  apply Rmult_le_compat; [lra|apply Rmult_le_pos; lra|lra|lra].
Qed.
Lemma free_ln_gamma_wrong : exists g v, euler_gamma 1 g /\ free_ln_gamma 1 = Ret v /\ v <> ln g.
Proof.
  exists 1, (lanczos 1). split; [apply (glr_gamma _ _ _ glr_1)|]. split; [unfold free_ln_gamma; apply sgamma_ge; lra|].
  rewrite ln_1. apply Rgt_not_eq. apply lanczos_pos. lra.
Qed.

(** ** Single precision erfinv *)
Lemma Rdiv_neg_lt a b c : b < 0 -> c * b < a -> a / b < c.
Proof. intros Hb H. apply Rmult_lt_reg_r with (- b); [lra|]. replace (a / b * - b) with (- a) by (field; lra). lra. Qed.
Lemma Rdiv_neg_gt a b c : b < 0 -> a < c * b -> c < a / b.
Proof. intros Hb H. apply Rmult_lt_reg_r with (- b); [lra|]. replace (a / b * - b) with (- a) by (field; lra). lra. Qed.
Lemma serfinv32_odd inf x : Rabs x < 1 -> exists v, serfinv32 inf x = Ret v /\ serfinv32 inf (- x) = Ret (- v).
Proof.
  intros H. destruct (Req_dec x 0) as [->|N].
  { exists 0. assert (Z : forall y, y = 0 -> serfinv32 inf y = Ret 0).
    { intros y ->. unfold serfinv32. rb. rewrite !lit_R. rops. rewrite Rabs_R0.
      unfold R_leb at 1. destruct (Rle_dec 1 0); [lra|].
      unfold R_leb at 1. destruct (Rle_dec 0 (3 / 4)); [|lra]. f_equal. unfold Rdiv. ring. }
    rewrite Ropp_0. split; apply Z; lra. }
  unfold serfinv32. rb. rewrite !lit_R. rops. rewrite Rabs_Ropp.
  unfold R_leb at 1 4. destruct (Rle_dec 1 (Rabs x)); [lra|].
  replace (- x * - x) with (x * x) by ring.
  destruct (R_leb (Rabs x) (3 / 4)); [eexists; split; [reflexivity|f_equal; unfold Rdiv; ring]|].
  destruct (R_leb (Rabs x) (15 / 16)); [eexists; split; [reflexivity|f_equal; unfold Rdiv; ring]|].
  eexists. split; [reflexivity|]. f_equal.
  set (t := 1 / sqrt (- ln (1 - Rabs x))).
  assert (0 < t).
  { unfold t. apply Rdiv_lt_0_compat; [lra|]. apply sqrt_lt_R0.
    assert (0 < Rabs x) by (apply Rabs_pos_lt; assumption).
    assert (ln (1 - Rabs x) < 0); [|lra]. rewrite <- ln_1. apply ln_increasing; lra. }
  assert (CS : copysign t (- x) = - copysign t x).
  { unfold copysign. rb. rops. repeat rcase; lra. }
  rewrite CS. set (c := copysign t x). set (h := horner t e32_q3_0 e32_q3).
  replace (- c * h) with (- (c * h)) by ring. unfold Rdiv. rewrite Rinv_opp. ring.
Qed.
Lemma serfinv32_ends inf : serfinv32 inf 1 = Ret inf /\ serfinv32 inf (-1) = Ret (- inf).
Proof.
  unfold serfinv32. rb. rops. rewrite Rabs_Ropp || idtac.
  replace (Rabs 1) with 1 by (symmetry; apply Rabs_R1).
  replace (Rabs (-1)) with 1 by (symmetry; rewrite Rabs_left; lra).
  split.
  - repeat rcase; try lra; reflexivity.
  - unfold R_leb at 1. destruct (Rle_dec 1 1); [|lra]. unfold R_eqb.
    destruct (Req_EM_T (-1) 1); [lra|]. destruct (Req_EM_T (-1) (- (1))); [reflexivity|lra].
Qed.
Lemma serfinv32_panic inf x : 1 < Rabs x -> serfinv32 inf x = Panic.
Proof.
  intros H. unfold serfinv32. rb. rops. unfold R_leb at 1. destruct (Rle_dec 1 (Rabs x)); [|lra].
  unfold R_eqb. destruct (Req_EM_T x 1) as [->|]; [rewrite Rabs_R1 in H; lra|].
  destruct (Req_EM_T x (- (1))) as [->|]; [rewrite Rabs_Ropp, Rabs_R1 in H; lra|reflexivity].
Qed.
Lemma serfinv32_half inf : exists v, serfinv32 inf (1 / 2) = Ret v /\ 1 / 4 < v < 1 / 3.
Proof.
  unfold serfinv32. rb. rewrite !lit_R. rops. rewrite Rabs_right by lra. repeat rcase; try lra.
  eexists. split; [reflexivity|].
  unfold horner, e32_p1, e32_q1, e32_p1_0, e32_q1_0. cbn [rev app fold_left]. rewrite !lit_R. rops. split; [apply Rdiv_neg_gt|apply Rdiv_neg_lt]; lra.
Qed.
Lemma serfinv32_neg inf : exists v, serfinv32 inf (9 / 10) = Ret v /\ v < - 11.
Proof.
  unfold serfinv32. rb. rewrite !lit_R. rops. rewrite Rabs_right by lra. repeat rcase; try lra.
  eexists. split; [reflexivity|].
  unfold horner, e32_p2, e32_q2, e32_p2_0, e32_q2_0. cbn [rev app fold_left]. rewrite !lit_R. rops. apply Rlt_div_l; lra.
Qed.
Lemma erf_true_le x : 0 < x -> erf_true x <= 2 / sqrt PI * x.
Proof.
  intros Hx. pose proof sqrt_PI_pos as P.
  destruct (MVT_cor2 erf_true (fun t => 2 / sqrt PI * exp (- (t * t))) 0 x Hx) as [c [E [C1 C2]]].
  { intros c _. apply is_derive_Reals. apply erf_true_derive. }
  rewrite erf_true_0 in E. assert (exp (- (c * c)) <= 1). { rewrite <- exp_0. apply Rlt_le, exp_increasing. nra. }
  assert (0 < 2 / sqrt PI) by (apply Rdiv_lt_0_compat; lra). replace (erf_true x) with (2 / sqrt PI * exp (- (c * c)) * (x - 0)) by lra.
  rewrite Rminus_0_r. apply Rmult_le_compat_r; [lra|]. replace (2 / sqrt PI) with (2 / sqrt PI * 1) at 2 by ring. apply Rmult_le_compat_l; lra.
Qed.
Lemma sqrt_PI_low : 5 / 3 < sqrt PI.
Proof. pose proof PI2_3_2. pose proof sqrt_PI_pos. assert (sqrt PI * sqrt PI = PI) by (apply sqrt_sqrt; unfold PI2 in *; lra). unfold PI2 in *. nra. Qed.
Lemma erfinv32_wrong inf : (exists v, serfinv32 inf (1 / 2) = Ret v /\ erf_true v < 2 / 5 ) /\
  (exists v, serfinv32 inf (9 / 10) = Ret v /\ erf_true v < 0).
Proof.
  split.
  - destruct (serfinv32_half inf) as [v [E [V1 V2]]]. exists v. split; [assumption|].
    pose proof (erf_true_le v ltac:(lra)) as L. pose proof sqrt_PI_low. pose proof sqrt_PI_pos.
    assert (2 / sqrt PI < 6 / 5).
    { apply Rlt_div_l; lra. }
    apply Rle_lt_trans with (1 := L). apply Rlt_le_trans with (6 / 5 * v); [apply Rmult_lt_compat_r; lra|lra].
  - destruct (serfinv32_neg inf) as [v [E V]]. exists v. split; [assumption|]. rewrite <- erf_true_0. apply erf_true_mono. lra.
Qed.

(** ** Student's t as implemented *)
Lemma td_pdf_zero fuel x : td_pdf (Sp := impl_special fuel) (mkT 0) x = Panic.
Proof.
  unfold td_pdf; cbn [td_n x_gamma impl_special]. rewrite !lit_2. rops. replace ((0 + 1) / 2) with (1 / 2) by field.
  rewrite sgamma_ge by lra. cbn [bind]. replace (0 / 2) with 0 by field. rewrite sgamma_zero. reflexivity.
Qed.
Lemma td2_cdf_panic fuel x : 2 < x * x -> td_cdf (Sp := impl_special fuel) (mkT 2) x = Panic.
Proof.
  intros Hx. unfold td_cdf; cbn [td_n x_gamma x_f21 impl_special]. rewrite !lit_2, lit_half', !lit_R. rops. rewrite R_pow_2.
  replace (sf21 fuel (1 / 2) ((2 + 1) / 2) (3 / 2) (- (x * x) / 2)) with (@Panic (option R)); [reflexivity|].
  symmetry. unfold sf21. rb. rops. repeat rcase; try lra.
  replace ((2 + 1) / 2 - 1 / 2) with 1 by field. replace (3 / 2 - 1 / 2) with 1 by field.
  replace (3 / 2 - (2 + 1) / 2) with 0 by field. rewrite sgamma_zero.
  rewrite !(sgamma_ge (3 / 2)), !(sgamma_ge 1), (sgamma_ge (1 / 2)), (sgamma_ge ((2 + 1) / 2)) by lra. cbn [bind olift obind].
  rewrite (sgamma_lt (1 / 2 - (2 + 1) / 2)) by lra. reflexivity.
Qed.

(** ** The hypergeometric series *)
Lemma f21_loop_sym fuel : forall (a b c z ci si sip j : R), f21_loop fuel a b c z ci si sip j = f21_loop fuel b a c z ci si sip j.
Proof.
  induction fuel as [|n IH]; intros a b c z ci si sip j; cbn [f21_loop]; [reflexivity|].
  destruct (ltb _ _); [|reflexivity]. rops. rewrite (Rmult_comm (b + j) (a + j)). apply IH.
Qed.
Lemma f21_loop_fuel k : forall m (a b c z ci si sip j v : R), f21_loop k a b c z ci si sip j = Some v -> f21_loop (k + m) a b c z ci si sip j = Some v.
Proof.
  induction k as [|k IH]; intros m a b c z ci si sip j v; cbn [f21_loop Nat.add].
  - destruct (ltb _ _) eqn:E; [discriminate|]. destruct m; cbn [f21_loop]; rewrite E; exact (fun H => H).
  - destruct (ltb _ _); [apply IH|exact (fun H => H)].
Qed.

Lemma f21_tol_R : f21_tol = 2 / 10000000000000000.
Proof. unfold f21_tol. rewrite lit_R. reflexivity. Qed.
Section F21.
Variables a b c z : R.
Hypothesis Ha : 0 < a.
Hypothesis Hb : 0 < b.
Hypothesis Hc : 0 < c.
Hypothesis Hz : 0 <= z <= 1 / 2.
Let term (ci j : R) : R := ci * ((a + j) * (b + j) / (c + j)) * (z / (j + 1)).
Lemma f21_term_nonneg ci j : 0 <= ci -> 0 <= j -> 0 <= term ci j.
Proof.
  intros H1 H2. unfold term. repeat apply Rmult_le_pos; try lra; try (apply Rlt_le, Rinv_0_lt_compat; lra).
Qed.
Lemma f21_unfold k ci si sip j : f21_loop (S k) a b c z ci si sip j =
  if Rlt_dec f21_tol (Rabs ci / Rabs sip) then f21_loop k a b c z (term ci j) (si + term ci j) si (j + 1) else Some si.
Proof. cbn [f21_loop]. rb. rops. rcase; destruct (Rlt_dec f21_tol (Rabs ci / Rabs sip)); try lra; reflexivity. Qed.
Lemma f21_stop k ci si sip j : 0 <= ci -> 1 <= sip -> ci <= f21_tol -> f21_loop k a b c z ci si sip j = Some si.
Proof.
  intros H1 H2 H3. assert (N : ~ f21_tol < Rabs ci / Rabs sip).
  { rewrite !Rabs_right by lra. intros H. apply Rlt_div_r in H; [|lra]. assert (0 < f21_tol) by (rewrite f21_tol_R; lra). nra. }
  destruct k; [|rewrite f21_unfold; destruct (Rlt_dec _ _); [contradiction|reflexivity]].
  cbn [f21_loop]. rb. rops. rcase; [contradiction|reflexivity].
Qed.
Lemma f21_geo k : forall ci si sip j, 0 <= ci -> 0 <= j -> 1 <= sip -> sip <= si -> 2 * (a + b) + 2 * (a * b) + 1 <= j ->
  ci <= f21_tol * (4 / 3) ^ k -> exists v, f21_loop k a b c z ci si sip j = Some v /\ 1 <= v.
Proof.
  induction k as [|k IH]; intros ci si sip j H1 H2 H3 H4 H5 H6.
  - exists si. split; [|lra]. apply f21_stop; [assumption|assumption|]. rewrite pow_O, Rmult_1_r in H6. assumption.
  - rewrite f21_unfold. destruct (Rlt_dec _ _); [|exists si; split; [reflexivity|lra]].
    assert (T0 := f21_term_nonneg ci j H1 H2).
    assert (T1 : term ci j <= 3 / 4 * ci).
    { unfold term. replace (ci * ((a + j) * (b + j) / (c + j)) * (z / (j + 1))) with (ci * ((a + j) * (b + j) * z / ((c + j) * (j + 1)))) by (field; lra).
      rewrite (Rmult_comm (3 / 4)). apply Rmult_le_compat_l; [assumption|].
      assert (AB : 0 < a * b) by (apply Rmult_lt_0_compat; assumption).
      assert (D : 0 < (c + j) * (j + 1)) by (apply Rmult_lt_0_compat; lra).
      apply Rle_div_l; [exact D|].
      assert (P : 0 <= (a + j) * (b + j)) by (apply Rmult_le_pos; lra).
      apply Rle_trans with ((a + j) * (b + j) * (1 / 2)); [apply Rmult_le_compat_l; lra|].
      assert (J : j * (2 * (a + b) + 2 * (a * b) + 1) <= j * j) by (apply Rmult_le_compat_l; lra).
      assert (J2 : a * b * 1 <= a * b * j) by (apply Rmult_le_compat_l; lra).
      assert (0 <= c * j) by (apply Rmult_le_pos; lra). nra. }
    apply IH; try lra. cbn [pow] in H6. lra.
Qed.
Lemma f21_warm n : forall ci si sip j, 0 <= ci -> 0 <= j -> 1 <= sip -> sip <= si -> 2 * (a + b) + 2 * (a * b) + 1 <= j + INR n ->
  exists k v, f21_loop k a b c z ci si sip j = Some v /\ 1 <= v.
Proof.
  induction n as [|n IH]; intros ci si sip j H1 H2 H3 H4 H5.
  - assert (T : 0 < f21_tol) by (rewrite f21_tol_R; lra).
    destruct (Pow_x_infinity (4 / 3)) with (b := ci / f21_tol) as [N HN]; [rewrite Rabs_right; lra|].
    exists N. apply f21_geo; try assumption; [cbn in H5; lra|]. specialize (HN N (Nat.le_refl N)).
    rewrite Rabs_right in HN by (apply Rle_ge, pow_le; lra). apply Rge_le in HN. apply Rle_div_l in HN; [|assumption]. lra.
  - assert (T0 := f21_term_nonneg ci j H1 H2). rewrite S_INR in H5.
    destruct (IH (term ci j) (si + term ci j) si (j + 1)) as (k & v & E & V); try lra.
    destruct (Rlt_dec f21_tol (Rabs ci / Rabs sip)) as [L|L].
    + exists (S k), v. split; [|assumption]. rewrite f21_unfold. destruct (Rlt_dec _ _); [assumption|contradiction].
    + exists 1%nat, si. split; [|lra]. rewrite f21_unfold. destruct (Rlt_dec _ _); [contradiction|reflexivity].
Qed.
Lemma f21_norm_total : exists k v, f21_norm k a b c z = Some v /\ 1 <= v.
Proof.
  destruct (nfloor_ex (2 * (a + b) + 2 * (a * b) + 1)) as [n0 Hn0].
  { assert (0 < a * b) by (apply Rmult_lt_0_compat; assumption). lra. }
  set (n := S n0). assert (Hn : 2 * (a + b) + 2 * (a * b) + 1 < INR n) by (unfold n; rewrite S_INR; lra). unfold f21_norm. rops. apply (f21_warm n); lra.
Qed.
Lemma sf21_small k : sf21 k a b c z = Ret (f21_norm k a b c z).
Proof. unfold sf21. rb. rewrite lit_half'. rops. repeat rcase; try lra; reflexivity. Qed.
End F21.
Lemma f21_zero k (a b c : R) : f21_norm (S k) a b c 0 = Some 1.
Proof.
  unfold f21_norm. rops. rewrite f21_unfold. destruct (Rlt_dec _ _); [|reflexivity]. unfold Rdiv. rewrite Rmult_0_l, Rmult_0_r, Rplus_0_r.
  apply f21_stop; rewrite ?f21_tol_R; lra.
Qed.

(** ** Bernoulli *)
Lemma bern_moments p : sum_to 1 (bern_pm p) = 1 /\ d_mean 1 (bern_pm p) = p /\ d_variance 1 (bern_pm p) = p * (1 - p).
Proof. unfold d_variance, d_mean, expectation. cbn. repeat split; ring. Qed.
Lemma bernoulli_is_cdf p : 0 <= p <= 1 -> is_cdf (bernoulli_cdf (mkBernoulli p)).
Proof.
  intros Hp. split; [|split].
  - intros x y Hxy. unfold bernoulli_cdf; cbn [bn_p]. rb. rops. repeat rcase; lra.
  - apply (is_lim_const_m _ 0 0). intros x Hx. unfold bernoulli_cdf; cbn [bn_p]. rb. rops. repeat rcase; lra.
  - apply (is_lim_const_p _ 1 1). intros x Hx. unfold bernoulli_cdf; cbn [bn_p]. rb. rops. repeat rcase; lra.
Qed.
Lemma bernoulli_cdf_0 p : bernoulli_cdf (mkBernoulli p) 0 = 0 /\ prob_le 1 (bern_pm p) 0 = 1 - p.
Proof.
  split.
  - unfold bernoulli_cdf; cbn [bn_p]. rb. rops. repeat rcase; lra.
  - unfold prob_le. cbn. repeat (destruct (Rle_dec _ _)); lra.
Qed.
Lemma binomial_mean_eq n p : binomial_mean (binomial_new n p) = INR n * p /\ binomial_variance (binomial_new n p) = INR n * p * (1 - p).
Proof. unfold binomial_variance, binomial_mean, binomial_new; cbn [bi_n bi_p]. rewrite of_u_R. rops. split; ring. Qed.

(** ** Exact special functions at the half-integers: an instance meeting the hypotheses *)
Definition half_index (z : R) : nat := Z.to_nat (Int_part (2 * z)).
Definition gam_half_int (n : nat) : R := if Nat.even n then INR (fact (Nat.div2 n - 1)) else ghalf (Nat.div2 n).
Definition lr_half_int (n : nat) (y : R) : R := if Nat.even n then chiE (Nat.div2 n - 1) y else chiO (Nat.div2 n) y.
Definition exact_special : Special R := {|
  x_gamma := fun z => Ret (gam_half_int (half_index z));
  x_digamma := fun _ => Panic;
  x_gamma_lr := fun a y => Ret (lr_half_int (half_index a) y);
  x_gamma_ur := fun a y => Ret (1 - lr_half_int (half_index a) y);
  x_gamma_ur_inv := fun _ q => Ret (- ln q);
  x_erf := fun x => Ret (erf_true x);
  x_beta := fun p q => Ret (if Req_EM_T q 1 then / p else 0);
  x_beta_inc_reg := fun _ _ _ => Panic; x_f21 := fun _ _ _ _ => Panic |}.
Lemma half_index_ok n : half_index (INR n / 2) = n.
Proof. unfold half_index. replace (2 * (INR n / 2)) with (IZR (Z.of_nat n)) by (rewrite <- INR_IZR_INZ; field). rewrite Int_part_IZR. apply Nat2Z.id. Qed.
Lemma half_glr n : (1 <= n)%nat -> is_glr (INR n / 2) (gam_half_int n) (lr_half_int n).
Proof.
  intros Hn. unfold gam_half_int, lr_half_int. destruct (Nat.Even_or_Odd n) as [[q ->]|[q ->]].
  - destruct q as [|q]; [lia|]. rewrite Nat.div2_double. replace (S q - 1)%nat with q by lia.
    replace (Nat.even (2 * S q)) with true by (symmetry; apply Nat.even_spec; exists (S q); reflexivity).
    replace (INR (2 * S q) / 2) with (INR (S q)) by (rewrite mult_INR; cbn; field). apply chiE_glr.
  - replace (Nat.even (2 * q + 1)) with false by (rewrite Nat.even_add, Nat.even_mul; reflexivity).
    assert (D : Nat.div2 (2 * q + 1) = q) by (replace (2 * q + 1)%nat with (S (2 * q)) by lia; apply Nat.div2_succ_double).
    rewrite D.
    replace (INR (2 * q + 1) / 2) with (INR q + 1 / 2) by (rewrite plus_INR, mult_INR; cbn; field). apply chiO_glr.
Qed.
Lemma exact_gamma n : (1 <= n)%nat -> exists g, x_gamma (Special := exact_special) (INR n / 2) = Ret g /\ euler_gamma (INR n / 2) g.
Proof.
  intros Hn. exists (gam_half_int n). cbn [x_gamma exact_special]. rewrite half_index_ok. split; [reflexivity|]. apply (glr_gamma _ _ _ (half_glr n Hn)).
Qed.

(** ** Double precision: constructors accept NaN, degenerate samples produce NaN *)
Lemma nan_accepted : bernoulli_new (S754_nan : f64) = Ret (mkBernoulli S754_nan) /\
  poisson_new (S754_nan : f64) = Ret (mkPoisson S754_nan) /\ exponential_new (S754_nan : f64) = Ret (mkExponential S754_nan) /\
  normal_new (zero : f64) S754_nan = Ret (mkNormal zero S754_nan) /\ uniform_new (zero : f64) S754_nan = Ret (mkUniform zero S754_nan).
Proof. repeat split; reflexivity. Qed.
Lemma exponential_empty_f64 : exponential_from_data (nil : list f64) = Ret (mkExponential S754_nan).
Proof. vm_compute. reflexivity. Qed.
Lemma normal_random_nan pw (E : EOps f64) (m v : f64) us : tln (zero : f64) = S754_infinity true ->
  pw (S754_infinity false) (@half f64 (F64_pops pw)) = S754_infinity false ->
  @normal_random f64 F64_ops (F64_pops pw) E (mkNormal m v) ((lit 1 2, lit 1 2) :: us) = Some S754_nan.
Proof.
  intros H H'. cbn [normal_random no_mean no_var].
  replace (sub (mul (lit 2 1) (lit 1 2)) one) with (zero : f64) by (vm_compute; reflexivity).
  replace (add (mul zero zero) (mul zero zero)) with (zero : f64) by (vm_compute; reflexivity).
  rewrite H. replace (leb (one : f64) zero) with false by (vm_compute; reflexivity).
  replace (div (mul (neg (lit 2 1)) (S754_infinity true)) zero) with (S754_infinity false : f64) by (vm_compute; reflexivity).
  change (@tsqrt f64 (F64_pops pw) (S754_infinity false)) with (pw (S754_infinity false) (@half f64 (F64_pops pw))). rewrite H'. reflexivity.
Qed.
Lemma log_normal_pdf_zero_nan pw (E : EOps f64) w e : tln (zero : f64) = S754_infinity true -> texp (S754_infinity true) = (zero : f64) ->
  pw (S754_infinity true) (@two f64 (F64_pops pw)) = S754_infinity false -> pw (mul (@two f64 (F64_pops pw)) tpi) (@half f64 (F64_pops pw)) = S754_finite false w e ->
  @log_normal_pdf f64 F64_ops (F64_pops pw) E (mkLogNormal zero one) zero = S754_nan.
Proof.
  intros H1 H2 H3 H4. unfold log_normal_pdf; cbn [ln_mu ln_s2].
  replace (ltb (zero : f64) zero) with false by (vm_compute; reflexivity). cbv zeta. rewrite H1.
  replace (sub (S754_infinity true) (zero : f64)) with (S754_infinity true : f64) by reflexivity.
  replace (lit 2 1) with (@two f64 (F64_pops pw)) by (vm_compute; reflexivity).
  change (@tpow f64 (F64_pops pw) (S754_infinity true) (@two f64 (F64_pops pw))) with (pw (S754_infinity true) (@two f64 (F64_pops pw))). rewrite H3.
  replace (div (mul (lit (-1) 2) (S754_infinity false)) (one : f64)) with (S754_infinity true : f64) by (vm_compute; reflexivity).
  match goal with |- context [@texp ?t ?e ?x] => replace (@texp t e x) with (zero : f64) by (symmetry; exact H2) end.
  replace (mul (one : f64) (@two f64 (F64_pops pw))) with (@two f64 (F64_pops pw)) by (vm_compute; reflexivity).
  match goal with |- context [@tsqrt f64 _ ?x] => change (@tsqrt f64 (F64_pops pw) x) with (pw x (@half f64 (F64_pops pw))) end. rewrite H4. reflexivity.
Qed.
