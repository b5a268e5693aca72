(** Successful construction determines the distribution. *)
From Coq Require Import Arith Lia List Bool ZArith Reals Lra.
From Coquelicot Require Import Coquelicot.
From Verif Require Import Outcome Scalar RealOps Int_model Ode_model Special_model Stat_model Stat_spec Combin_proofs Discrete_proofs OdeOrder_proofs Continuous_proofs Normal_proofs GammaFun_proofs GammaDist_proofs StatExtra_proofs.
Local Open Scope R_scope.

Lemma bernoulli_new_inv p d : bernoulli_new p = Ret d -> (0 <= p <= 1) /\ d = mkBernoulli p.
Proof.
  intro E. assert (d = mkBernoulli p) by (unfold bernoulli_new in E; match type of E with (if ?b then _ else _) = _ => destruct b end; [discriminate E|injection E as <-; reflexivity]).
  subst. split; [exact (proj1 (bernoulli_new_iff _) E) || exact (proj1 (bernoulli_new_iff _ _) E)|reflexivity].
Qed.
Lemma uniform_new_inv a b d : uniform_new a b = Ret d -> (a < b) /\ d = mkUniform a b.
Proof.
  intro E. assert (d = mkUniform a b) by (unfold uniform_new in E; match type of E with (if ?b then _ else _) = _ => destruct b end; [discriminate E|injection E as <-; reflexivity]).
  subst. split; [exact (proj1 (uniform_new_iff _) E) || exact (proj1 (uniform_new_iff _ _) E)|reflexivity].
Qed.
Lemma exponential_new_inv l d : exponential_new l = Ret d -> (0 < l) /\ d = mkExponential l.
Proof.
  intro E. assert (d = mkExponential l) by (unfold exponential_new in E; match type of E with (if ?b then _ else _) = _ => destruct b end; [discriminate E|injection E as <-; reflexivity]).
  subst. split; [exact (proj1 (exponential_new_iff _) E) || exact (proj1 (exponential_new_iff _ _) E)|reflexivity].
Qed.
Lemma raised_new_inv mu s d : raised_new mu s = Ret d -> (0 <= s) /\ d = mkRaised mu s.
Proof.
  intro E. assert (d = mkRaised mu s) by (unfold raised_new in E; match type of E with (if ?b then _ else _) = _ => destruct b end; [discriminate E|injection E as <-; reflexivity]).
  subst. split; [exact (proj1 (raised_new_iff _) E) || exact (proj1 (raised_new_iff _ _) E)|reflexivity].
Qed.
Lemma normal_new_inv m v d : normal_new m v = Ret d -> (0 < v) /\ d = mkNormal m v.
Proof.
  intro E. assert (d = mkNormal m v) by (unfold normal_new in E; match type of E with (if ?b then _ else _) = _ => destruct b end; [discriminate E|injection E as <-; reflexivity]).
  subst. split; [exact (proj1 (normal_new_iff _) E) || exact (proj1 (normal_new_iff _ _) E)|reflexivity].
Qed.
Lemma poisson_new_inv g d : poisson_new g = Ret d -> (0 < g) /\ d = mkPoisson g.
Proof.
  intro E. assert (d = mkPoisson g) by (unfold poisson_new in E; match type of E with (if ?b then _ else _) = _ => destruct b end; [discriminate E|injection E as <-; reflexivity]).
  subst. split; [exact (proj1 (poisson_new_iff _) E) || exact (proj1 (poisson_new_iff _ _) E)|reflexivity].
Qed.
Lemma gammad_new_inv a b d : gammad_new a b = Ret d -> (0 < a /\ 0 < b) /\ d = mkGammaD a b.
Proof.
  intro E. assert (d = mkGammaD a b) by (unfold gammad_new in E; match type of E with (if ?b then _ else _) = _ => destruct b end; [discriminate E|injection E as <-; reflexivity]).
  subst. split; [exact (proj1 (gammad_new_iff _) E) || exact (proj1 (gammad_new_iff _ _) E)|reflexivity].
Qed.
Lemma beta_new_inv p q d : beta_new p q = Ret d -> (0 <= p /\ 0 < q) /\ d = mkBeta p q.
Proof.
  intro E. assert (d = mkBeta p q) by (unfold beta_new in E; match type of E with (if ?b then _ else _) = _ => destruct b end; [discriminate E|injection E as <-; reflexivity]).
  subst. split; [exact (proj1 (beta_new_iff _) E) || exact (proj1 (beta_new_iff _ _) E)|reflexivity].
Qed.
Lemma td_new_inv n d : td_new n = Ret d -> (0 <= n) /\ d = mkT n.
Proof.
  intro E. assert (d = mkT n) by (unfold td_new in E; match type of E with (if ?b then _ else _) = _ => destruct b end; [discriminate E|injection E as <-; reflexivity]).
  subst. split; [exact (proj1 (td_new_iff _) E) || exact (proj1 (td_new_iff _ _) E)|reflexivity].
Qed.
Lemma log_normal_new_iff m v : log_normal_new m v = Ret (mkLogNormal m v) <-> 0 < v.
Proof. unfold log_normal_new. rb. rops. rcase; split; try discriminate; try lra; auto. Qed.
Lemma log_normal_new_panic m v : log_normal_new m v = Panic <-> v <= 0.
Proof. unfold log_normal_new. rb. rops. rcase; split; try discriminate; try lra; auto. Qed.
Lemma log_normal_new_inv m v d : log_normal_new m v = Ret d -> 0 < v /\ d = mkLogNormal m v.
Proof.
  intro E. assert (d = mkLogNormal m v) by (unfold log_normal_new in E; match type of E with (if ?b then _ else _) = _ => destruct b end; [discriminate E|injection E as <-; reflexivity]).
  subst. split; [apply (log_normal_new_iff m v); exact E|reflexivity].
Qed.
Lemma chi_new_inv n d : chi_new n = Ret d -> (1 <= n)%nat /\ d = mkChi (INR n).
Proof.
  intro E. assert (d = mkChi (of_u n)) by (unfold chi_new in E; match type of E with (if ?b then _ else _) = _ => destruct b end; [discriminate E|injection E as <-; reflexivity]).
  subst. assert (H : @of_u R _ n = INR n) by (unfold of_u; cbn; symmetry; apply INR_IZR_INZ). rewrite H in *.
  split; [exact (proj1 (chi_new_iff _) E) || exact (proj1 (chi_new_iff _ _) E)|reflexivity].
Qed.

(** ** Third moment of the raised cosine *)
Section RaisedThird.
Variables (mu s : R).
Hypothesis Hs : 0 < s.
Definition rc_m3 (x : R) : R :=
  ((x - mu) ^ 4 / 4 + (x - mu) ^ 3 * s / PI * sin (PI * (x - mu) / s)
   + 3 * (x - mu) ^ 2 * (s * s) / (PI * PI) * cos (PI * (x - mu) / s)
   - 6 * (x - mu) * (s * s * s) / (PI * PI * PI) * sin (PI * (x - mu) / s)
   - 6 * (s * s * s * s) / (PI * PI * PI * PI) * cos (PI * (x - mu) / s)) / (2 * s).
Lemma rc_m3_derive x : is_derive rc_m3 x ((x - mu) ^ 3 * rc_p mu s x).
Proof.
  unfold rc_m3, rc_p. pose proof PI_neq0. auto_derive; [auto|].
  replace (PI * (x + - mu) * / s) with (PI * (x - mu) / s) by reflexivity.
  field. repeat split; lra.
Qed.
Lemma raised_third_ok :
  is_RInt (fun x => (x - raised_mean (mkRaised mu s)) ^ 3 * raised_pdf (mkRaised mu s) x) (mu - s) (mu + s) (raised_skewness (mkRaised mu s)).
Proof.
  unfold raised_mean; cbn [rc_mu].
  apply (raised_int mu s Hs rc_m3 (fun x => (x - mu) ^ 3)).
  - intros x. apply rc_m3_derive.
  - intros x. apply (ex_derive_continuous (fun x => (x - mu) ^ 3 * rc_p mu s x)). unfold rc_p. auto_derive. auto.
  - unfold rc_m3, raised_skewness. rewrite (arg_hi mu s Hs), (arg_lo mu s Hs), sin_neg, cos_neg, sin_PI, cos_PI.
    rops. pose proof PI_neq0. field. split; lra.
Qed.
End RaisedThird.

(** ** Entropy of the log-normal distribution *)
Lemma integral_line_pos (g : R -> R) v : integral_line g v -> integral_pos (fun x => g (ln x) / x) v.
Proof.
  intros (F & l & D & L0 & L1). exists (fun x => F (ln x) - l). split; [|split].
  - intros x Hx. evar_last.
    + apply (is_derive_minus (fun x => F (ln x)) (fun _ => l) x (/ x * g (ln x)) 0).
      * apply (is_derive_comp F ln x (g (ln x)) (/ x)); [apply D|]. now apply is_derive_ln.
      * apply (is_derive_const l x).
    + match goal with |- ?a = ?b => change (@eq R a b) end. unfold minus, plus, opp; cbn. unfold Rdiv. ring.
  - replace (locally 0) with (Rbar_locally (l - l)) by (cbn; rewrite Rminus_diag_eq by reflexivity; reflexivity).
    apply (filterlim_comp _ _ _ (fun x => ln x) (fun y => F y - l) (at_right 0) (Rbar_locally m_infty)).
    + apply is_lim_ln_0.
    + apply (is_lim_minus' F (fun _ => l) m_infty l l); [assumption|apply is_lim_const].
  - replace (Finite v) with (Finite (l + v - l)) by (f_equal; ring).
    apply is_lim_minus'; [|apply is_lim_const].
    apply (is_lim_comp F ln p_infty (l + v) p_infty); [assumption|apply is_lim_ln_p|].
    exists 0. discriminate.
Qed.
Lemma log_normal_entropy_ok m v : 0 < v ->
  integral_pos (fun x => - ln (log_normal_pdf (mkLogNormal m v) x) * log_normal_pdf (mkLogNormal m v) x)
    (log_normal_entropy (mkLogNormal m v) * ln 2).
Proof.
  intro Hv. pose proof PI_RGT_0 as HPI. assert (0 < 2 * PI * v) by nra. assert (Hsq : 0 < sqrt (2 * PI * v)) by now apply sqrt_lt_R0.
  assert (HL : 0 < ln 2) by (rewrite <- ln_1; apply ln_increasing; lra).
  apply (integral_pos_ext (fun x => ((ln x * gauss m v (ln x) / x + ln (sqrt (2 * PI * v)) * (gauss m v (ln x) / x)) + / (2 * v) * ((ln x - m) ^ 2 * gauss m v (ln x) / x)))
    _ ((m + ln (sqrt (2 * PI * v)) * 1) + / (2 * v) * v)).
  - intros x Hx. rewrite (log_normal_pdf_gauss m v Hv x Hx).
    assert (Hg : ln (gauss m v (ln x) / x) = - ln (sqrt (2 * PI * v)) - (ln x - m) ^ 2 / (2 * v) - ln x).
    { unfold gauss, Rdiv. rewrite ln_mult, ln_mult, ln_exp, !ln_Rinv; cycle 1.
      1-6: repeat first [exact Hx|exact Hsq|apply exp_pos|apply Rinv_0_lt_compat|apply Rmult_lt_0_compat].
      field. lra. }
    rewrite Hg. field. lra.
  - unfold log_normal_entropy; cbn [ln_mu ln_s2]. rewrite lit_2, lit_half. rops. rewrite !R_pow_half || idtac.
    match goal with |- _ = ln ?k / ln 2 * ln 2 => replace (ln k / ln 2 * ln 2) with (ln k) by (field; lra) end.
    rewrite ln_mult, ln_mult, ln_exp; try (apply sqrt_lt_R0; lra); try apply exp_pos.
    + replace (2 * PI * v) with (v * (2 * PI)) by ring. rewrite sqrt_mult_alt by lra. rewrite ln_mult by (apply sqrt_lt_R0; lra). field. lra.
    + apply Rmult_lt_0_compat; [apply sqrt_lt_R0; lra|apply exp_pos].
  - apply integral_pos_lin; [apply integral_pos_lin|].
    + apply (integral_line_pos (fun y => y * gauss m v y)). now apply gauss_mean.
    + apply (integral_line_pos (gauss m v)). now apply gauss_total.
    + apply (integral_line_pos (fun y => (y - m) ^ 2 * gauss m v y)). now apply gauss_variance.
Qed.

(** ** The regularised incomplete gamma function lies strictly between 0 and 1 *)
Lemma limits_range (F p : R -> R) : (forall x, 0 < x -> is_derive F x (p x)) -> (forall x, 0 < x -> 0 < p x) ->
  filterlim F (at_right 0) (locally 0) -> is_lim F p_infty 1 -> forall y, 0 < y -> 0 < F y < 1.
Proof.
  intros D P L0 L1 y Hy.
  assert (M : forall a b, 0 < a -> a < b -> F a < F b) by (exact (incr_pos F p D P)).
  assert (G0 : forall a, 0 < a -> 0 <= F a).
  { intros a Ha. apply (filterlim_le (F := at_right 0) F (fun _ => F a) 0 (F a)); [|exact L0|apply filterlim_const].
    exists (mkposreal a Ha). intros t Ht Ht0. rewrite <- (Rminus_0_r t) in Ht0. unfold ball in Ht; cbn in Ht. unfold AbsRing_ball, abs, minus, plus, opp in Ht; cbn in Ht.
    apply Rlt_le, M; [lra|]. apply Rabs_def2 in Ht. lra. }
  assert (G1 : forall a, 0 < a -> F a <= 1).
  { intros a Ha. change (Rbar_le (F a) 1). apply (filterlim_le (F := Rbar_locally p_infty) (fun _ => F a) F (F a) 1); [|apply filterlim_const|exact L1].
    exists a. intros t Ht. apply Rlt_le, M; lra. }
  split.
  - apply Rle_lt_trans with (F (y / 2)); [apply G0; lra|apply M; lra].
  - apply Rlt_le_trans with (F (y + 1)); [apply M; lra|apply G1; lra].
Qed.
Lemma glr_range s g F : is_glr s g F -> forall y, 0 < y -> 0 < F y < 1.
Proof.
  intros (Hg & D & L0 & L1). apply (limits_range F (fun y => Rpower y (s - 1) * exp (- y) / g)); auto.
  intros x Hx. apply Rdiv_lt_0_compat; [apply Rmult_lt_0_compat; apply exp_pos|assumption].
Qed.

(** ** Further lemmas on the chi-square, gamma and t distributions *)
Lemma atan_lim_p : is_lim atan p_infty (PI / 2).
Proof.
  apply (is_lim_ext_loc (fun x => PI / 2 - atan (/ x))).
  - exists 0. intros x Hx. rewrite atan_inv by assumption. ring.
  - replace (Finite (PI / 2)) with (Finite (PI / 2 - atan 0)) by (rewrite atan_0; f_equal; ring).
    apply is_lim_minus'; [apply is_lim_const|]. apply (is_lim_comp_continuous (fun x => / x) atan p_infty 0).
    + replace (Finite 0) with (Rbar_inv p_infty) by reflexivity. apply is_lim_inv; [apply is_lim_id|discriminate].
    + apply (ex_derive_continuous atan). auto_derive. exact I.
Qed.
Lemma atan_lim_m : is_lim atan m_infty (- (PI / 2)).
Proof.
  apply (is_lim_ext (fun x => - atan (- x))); [intro; rewrite atan_opp; ring|].
  apply (is_lim_opp (fun x => atan (- x)) m_infty (PI / 2)).
  apply (is_lim_comp atan (fun x => - x) m_infty (PI / 2) p_infty); [exact atan_lim_p|exact is_lim_opp_m|exists 0; intros; discriminate].
Qed.
Lemma cauchy_total : integral_line (fun x => / (PI * (1 + x * x))) 1.
Proof.
  pose proof PI_RGT_0 as HP. exists (fun x => / PI * atan x), (/ PI * - (PI / 2)). split; [|split].
  - intro x. auto_derive; [exact I|]. field. split; [nra|]. lra.
  - apply (is_lim_scal_l atan (/ PI) m_infty (- (PI / 2))). exact atan_lim_m.
  - replace (Finite (/ PI * - (PI / 2) + 1)) with (Finite (/ PI * (PI / 2))) by (f_equal; field; lra).
    apply (is_lim_scal_l atan (/ PI) p_infty (PI / 2)). exact atan_lim_p.
Qed.
Lemma chi_gamma_pdf (Sp : Special R) k g x : 0 < k -> 0 < x -> x_gamma (k / 2) = Ret g -> 0 < g ->
  chi_pdf (mkChi k) x = gammad_pdf (mkGammaD (k / 2) (1 / 2)) x.
Proof.
  intros Hk Hx E Hg. rewrite (chi_pdf_eq k g x) by assumption. symmetry. apply gammad_pdf_eq; auto. lra.
Qed.
Lemma chi_entropy_gamma (Sp : Special R) k g : 0 < k -> x_gamma (2 / k) = Ret g -> 0 < g ->
  chi_entropy (mkChi k) = gammad_entropy (mkGammaD (2 / k) (1 / 2)).
Proof.
  intros Hk E Hg. unfold chi_entropy, gammad_entropy; cbn [cs_k gd_a gd_b]. rewrite lit_R. rops.
  replace (2 / 1 / k) with (2 / k) by (field; lra). rewrite E. cbn [bind].
  destruct (x_digamma (2 / k)); cbn [bind]; [|reflexivity]. f_equal.
  rewrite ln_mult by lra. replace (ln (1 / 2)) with (- ln 2); [replace (2 / 1) with 2 by lra; ring|].
  replace (1 / 2) with (/ 2) by lra. rewrite ln_Rinv; lra.
Qed.
Lemma chi2_quantile_impl fuel p : p < 1 -> chi_quantile (Sp := impl_special fuel) (mkChi 2) p = Ret (- 2 * ln (1 - p)).
Proof.
  intro H. unfold chi_quantile, sgamma_ur_inv; cbn [x_gamma_ur_inv impl_special cs_k]. rewrite !lit_R. rops.
  unfold sgamma_ur_inv. rb. rops. rcase; [|lra]. cbn [defuel bind]. f_equal. lra.
Qed.
