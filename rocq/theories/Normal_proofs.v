(** Normal and log-normal distributions over exact reals. *)
From Coq Require Import Arith Lia List Bool ZArith Reals Lra.
From Coquelicot Require Import Coquelicot.
From Verif Require Import Outcome Scalar RealOps Elem_model Int_model Ode_model Special_model Stat_model.
From Verif Require Import Stat_spec Discrete_proofs OdeOrder_proofs Continuous_proofs Gauss_proofs.
Local Open Scope R_scope.

Lemma lit_half : lit 1 2 = 1 / 2. Proof. rewrite lit_R. reflexivity. Qed.
Lemma lit_mhalf : lit (-1) 2 = - (1 / 2). Proof. rewrite lit_R. lra. Qed.
Ltac lits := rewrite ?lit_2, ?lit_half, ?lit_mhalf.

Lemma normal_new_iff m v : normal_new m v = Ret (mkNormal m v) <-> 0 < v.
Proof. unfold normal_new. rb. rops. rcase; split; try discriminate; try lra; auto. Qed.
Lemma normal_new_panic m v : normal_new m v = Panic <-> v <= 0.
Proof. unfold normal_new. rb. rops. rcase; split; try discriminate; try lra; auto. Qed.

Lemma normal_pdf_eq m v x : 0 < v ->
  normal_pdf (mkNormal m v) x = / sqrt (2 * PI * v) * exp (- (((x - m) / v) * ((x - m) / v)) / 2).
Proof.
  intros Hv. unfold normal_pdf; cbn [no_mean no_var]. lits. rops. rewrite R_pow_2.
  replace (v * 2 * PI) with (2 * PI * v) by ring. rewrite Rdiv_1_l || unfold Rdiv at 1. rewrite ?Rmult_1_l.
  f_equal. f_equal. lra.
Qed.

Lemma gauss_norm_pos v : 0 < v -> 0 < / sqrt (2 * PI * v).
Proof.
  intros Hv. apply Rinv_0_lt_compat, sqrt_lt_R0. pose proof PI_RGT_0.
  apply Rmult_lt_0_compat; [lra|assumption].
Qed.

(** The coded density is the Gaussian one exactly for variance 1 or at the mean. *)
Lemma normal_pdf_gauss m v x : 0 < v ->
  (normal_pdf (mkNormal m v) x = gauss m v x <-> v = 1 \/ x = m).
Proof.
  intros Hv. rewrite normal_pdf_eq by assumption. unfold gauss.
  pose proof (gauss_norm_pos v Hv) as NP. split.
  - intros E. apply Rmult_eq_reg_l in E; [|lra]. apply exp_inv in E.
    destruct (Req_dec x m) as [|N]; [right; assumption|left].
    assert (S : (x - m) * (x - m) <> 0).
    { intros Z. apply Rmult_integral in Z. destruct Z; apply N; lra. }
    assert (E2 : (x - m) * (x - m) * (v - 1) = 0).
    { replace (- ((x - m) / v * ((x - m) / v)) / 2) with (- ((x - m) * (x - m)) / (2 * v * v)) in E by (field; lra).
      apply (f_equal (fun t => t * (2 * v * v))) in E.
      replace (- ((x - m) * (x - m)) / (2 * v * v) * (2 * v * v)) with (- ((x - m) * (x - m))) in E by (field; lra).
      replace (- ((x - m) * (x - m)) / (2 * v) * (2 * v * v)) with (- ((x - m) * (x - m)) * v) in E by (field; lra).
      lra. }
    apply Rmult_integral in E2. destruct E2; [contradiction|lra].
  - intros [->| ->]; f_equal; f_equal; field; lra.
Qed.

Lemma normal_pdf_pos m v x : 0 < v -> 0 < normal_pdf (mkNormal m v) x.
Proof.
  intros Hv. rewrite normal_pdf_eq by assumption. apply Rmult_lt_0_compat; [apply gauss_norm_pos; assumption|apply exp_pos].
Qed.
Lemma normal_pdf_sym m v t : 0 < v -> normal_pdf (mkNormal m v) (m + t) = normal_pdf (mkNormal m v) (m - t).
Proof. intros Hv. rewrite !normal_pdf_eq by assumption. f_equal. f_equal. field. lra. Qed.

Lemma normal_entropy_wrong m v : 0 < v ->
  normal_entropy (mkNormal m v) <> / 2 * ln (2 * PI * exp 1 * v).
Proof.
  intros Hv E. unfold normal_entropy in E; cbn [no_var] in E. rewrite lit_2 in E. rops.
  set (y := 2 * PI * exp 1 * v) in *.
  assert (P : 0 < y).
  { unfold y. pose proof PI_RGT_0. pose proof (exp_pos 1).
    apply Rmult_lt_0_compat; [apply Rmult_lt_0_compat; lra|assumption]. }
  pose proof (exp_ineq1_le (ln y)) as I. rewrite exp_ln in I by assumption. lra.
Qed.

(** ** Quantile *)
Lemma normal_quantile_panic d p : ~ (0 < p < 1) -> normal_quantile d p = Panic.
Proof. intros H. unfold normal_quantile. rb. rops. repeat rcase; try reflexivity; lra. Qed.

(** The standard quantile of the model, extracted from the code path for [0 < p < 1]. *)
Definition zq (p : R) : R :=
  let q := p - 1 / 2 in
  if Rle_dec (Rabs q) (17 / 40) then q * normal_r1 (180625 / 1000000 - q * q)
  else
    let r := if Rlt_dec q 0 then p else 1 - p in
    let s := sqrt (- ln r) in
    let v := if Rle_dec s 5 then normal_r2 (s - 8 / 5) else normal_r3 (s - 5) in
    if Rle_dec q 0 then - v else v.

Lemma normal_quantile_eq d p : 0 < p < 1 ->
  normal_quantile d p = Ret (no_mean d + sqrt (no_var d) * zq p).
Proof.
  intros H. unfold normal_quantile, zq. rb. rewrite !lit_R. rops.
  replace (IZR 1 / IZR 2) with (1 / 2) by reflexivity.
  unfold R_leb at 1. destruct (Rle_dec p 0); [lra|]. cbn [orb].
  unfold R_leb at 1. destruct (Rle_dec 1 p); [lra|].
  unfold R_leb at 1. destruct (Rle_dec (Rabs (p - 1 / 2)) (17 / 40)); [reflexivity|].
  unfold R_ltb. destruct (Rlt_dec (p - 1 / 2) 0).
  - unfold R_leb at 1. destruct (Rle_dec p 0); [lra|].
    replace (5 / 1) with 5 by field. unfold R_leb.
    destruct (Rle_dec (sqrt (- ln p)) 5), (Rle_dec (p - 1 / 2) 0); reflexivity.
  - unfold R_leb at 1. destruct (Rle_dec (1 - p) 0); [lra|].
    replace (5 / 1) with 5 by field. unfold R_leb.
    destruct (Rle_dec (sqrt (- ln (1 - p))) 5), (Rle_dec (p - 1 / 2) 0); reflexivity.
Qed.

Lemma zq_sym p : 0 < p < 1 -> zq (1 - p) = - zq p.
Proof.
  intros H. unfold zq.
  replace (1 - p - 1 / 2) with (- (p - 1 / 2)) by lra. rewrite Rabs_Ropp.
  replace (- (p - 1 / 2) * - (p - 1 / 2)) with ((p - 1 / 2) * (p - 1 / 2)) by ring.
  destruct (Rle_dec (Rabs (p - 1 / 2)) (17 / 40)) as [L|L]; [ring|].
  assert (N : p - 1 / 2 <> 0). { intros E. rewrite E, Rabs_R0 in L. lra. }
  destruct (Rlt_dec (p - 1 / 2) 0).
  - destruct (Rlt_dec (- (p - 1 / 2)) 0); [lra|]. destruct (Rle_dec (- (p - 1 / 2)) 0); [lra|].
    destruct (Rle_dec (p - 1 / 2) 0); [|lra]. replace (1 - (1 - p)) with p by ring. ring.
  - destruct (Rlt_dec (- (p - 1 / 2)) 0); [|lra]. destruct (Rle_dec (- (p - 1 / 2)) 0); [|lra].
    destruct (Rle_dec (p - 1 / 2) 0); [lra|]. reflexivity.
Qed.
Lemma zq_half : zq (1 / 2) = 0.
Proof.
  unfold zq. replace (1 / 2 - 1 / 2) with 0 by ring. rewrite Rabs_R0.
  destruct (Rle_dec 0 (17 / 40)); [ring|lra].
Qed.

(** ** The standard normal distribution function *)
Definition Phi (z : R) : R := 1 / 2 * (1 + erf_true (z / sqrt 2)).
Lemma sqrt2_pos : 0 < sqrt 2. Proof. apply sqrt_lt_R0. lra. Qed.
Lemma Phi_derive z : is_derive Phi z (/ sqrt (2 * PI) * exp (- (z * z) / 2)).
Proof.
  pose proof sqrt2_pos. pose proof sqrt_PI_pos.
  assert (D : is_derive (fun z => erf_true (z / sqrt 2)) z
    (scal (/ sqrt 2) (2 / sqrt PI * exp (- ((z / sqrt 2) * (z / sqrt 2)))))).
  { apply (is_derive_comp erf_true (fun z => z / sqrt 2)); [apply erf_true_derive|].
    auto_derive; auto. field. lra. }
  unfold Phi.
  replace (/ sqrt (2 * PI) * exp (- (z * z) / 2))
    with (1 / 2 * (0 + / sqrt 2 * (2 / sqrt PI * exp (- ((z / sqrt 2) * (z / sqrt 2)))))).
  - apply (is_derive_scal (fun z => 1 + erf_true (z / sqrt 2)) z (1 / 2)).
    apply (@is_derive_plus _ R_NormedModule (fun _ => 1) (fun z => erf_true (z / sqrt 2))).
    + apply (@is_derive_const _ R_NormedModule).
    + exact D.
  - rewrite sqrt_mult_alt by lra.
    replace (z / sqrt 2 * (z / sqrt 2)) with (z * z / (sqrt 2 * sqrt 2)) by (field; lra).
    rewrite sqrt_sqrt by lra. replace (- (z * z / 2)) with (- (z * z) / 2) by lra. field. split; lra.
Qed.
Lemma Phi_lim_p : is_lim Phi p_infty 1.
Proof.
  pose proof sqrt2_pos. unfold Phi.
  assert (L : is_lim (fun z => 1 / 2 * (1 + erf_true (z / sqrt 2))) p_infty (1 / 2 * (1 + 1))).
  { apply (is_lim_scal_l _ (1 / 2) p_infty (1 + 1)). apply is_lim_plus'; [apply is_lim_const|].
    apply (is_lim_comp erf_true (fun z => z / sqrt 2) p_infty 1 p_infty).
    - apply erf_true_lim_p.
    - apply is_lim_spec. intros M. exists (M * sqrt 2). intros x Hx.
      apply Rmult_lt_reg_r with (sqrt 2); [assumption|]. unfold Rdiv. rewrite Rmult_assoc, Rinv_l; lra.
    - exists 0. intros. discriminate. }
  replace (1 / 2 * (1 + 1)) with 1 in L by lra. exact L.
Qed.
Lemma Phi_sym z : Phi (- z) = 1 - Phi z.
Proof.
  unfold Phi. pose proof sqrt2_pos. replace (- z / sqrt 2) with (- (z / sqrt 2)) by (field; lra).
  rewrite erf_true_odd. lra.
Qed.
Lemma Phi_lim_m : is_lim Phi m_infty 0.
Proof.
  apply (is_lim_ext (fun z => 1 - Phi (- z))); [intros; rewrite Phi_sym; ring|].
  assert (L : is_lim (fun z => 1 - Phi (- z)) m_infty (1 - 1)).
  { apply is_lim_minus'; [apply is_lim_const|].
    apply (is_lim_comp Phi (fun x => - x) m_infty 1 p_infty).
    + apply Phi_lim_p.
    + apply (is_lim_opp (fun x => x) m_infty m_infty). apply is_lim_id.
    + exists 0. intros. discriminate. }
  replace (1 - 1) with 0 in L by ring. exact L.
Qed.
Lemma Phi_mono x y : x < y -> Phi x < Phi y.
Proof.
  intros Hxy. unfold Phi. pose proof sqrt2_pos. assert (x / sqrt 2 < y / sqrt 2).
  { apply Rmult_lt_compat_r; [apply Rinv_0_lt_compat; assumption|assumption]. }
  pose proof (erf_true_mono _ _ H0). lra.
Qed.
Lemma Phi_0 : Phi 0 = 1 / 2.
Proof. unfold Phi. replace (0 / sqrt 2) with 0 by (unfold Rdiv; ring). rewrite erf_true_0. lra. Qed.

(** ** Distribution functions, for an exact error function *)
Section ExactErf.
Context {Sp : Special R}.
Hypothesis erf_ok : forall x, x_erf x = Ret (erf_true x).

Section Normal.
Variables m v : R.
Hypothesis Hv : 0 < v.
Let d := mkNormal m v.

Lemma normal_cdf_Phi x : normal_cdf d x = Ret (Phi ((x - m) / sqrt v)).
Proof.
  unfold normal_cdf, d; cbn [no_mean no_var]. rewrite erf_ok. cbn [bind]. lits. rops. unfold Phi.
  pose proof sqrt2_pos. pose proof (sqrt_lt_R0 v Hv).
  rewrite (sqrt_mult_alt 2 v) by lra.
  replace ((x - m) / (sqrt 2 * sqrt v)) with ((x - m) / sqrt v / sqrt 2) by (field; lra). reflexivity.
Qed.
Definition normal_F (x : R) : R := Phi ((x - m) / sqrt v).
Lemma normal_F_derive x : is_derive normal_F x (gauss m v x).
Proof.
  pose proof (sqrt_lt_R0 v Hv) as S. unfold normal_F, gauss.
  replace (/ sqrt (2 * PI * v) * exp (- ((x - m) * (x - m)) / (2 * v)))
    with (scal (/ sqrt v) (/ sqrt (2 * PI) * exp (- ((x - m) / sqrt v * ((x - m) / sqrt v)) / 2))).
  - apply (is_derive_comp Phi (fun x => (x - m) / sqrt v)); [apply Phi_derive|].
    auto_derive; auto. field. lra.
  - unfold scal; cbn; unfold mult; cbn.
    replace ((x - m) / sqrt v * ((x - m) / sqrt v)) with ((x - m) * (x - m) / (sqrt v * sqrt v)) by (field; lra).
    rewrite sqrt_sqrt by lra. pose proof PI_RGT_0.
    rewrite (sqrt_mult_alt (2 * PI) v) by lra. rewrite Rinv_mult.
    replace (- ((x - m) * (x - m) / v) / 2) with (- ((x - m) * (x - m)) / (2 * v)) by (field; lra). ring.
Qed.
Lemma lin_lim_p : is_lim (fun x => (x - m) / sqrt v) p_infty p_infty.
Proof.
  pose proof (sqrt_lt_R0 v Hv) as S. apply is_lim_spec. intros M. exists (M * sqrt v + m). intros x Hx.
  apply Rmult_lt_reg_r with (sqrt v); [assumption|]. unfold Rdiv. rewrite Rmult_assoc, Rinv_l; lra.
Qed.
Lemma lin_lim_m : is_lim (fun x => (x - m) / sqrt v) m_infty m_infty.
Proof.
  pose proof (sqrt_lt_R0 v Hv) as S. apply is_lim_spec. intros M. exists (M * sqrt v + m). intros x Hx.
  apply Rmult_lt_reg_r with (sqrt v); [assumption|]. unfold Rdiv. rewrite Rmult_assoc, Rinv_l; lra.
Qed.
Lemma normal_F_is_cdf : is_cdf normal_F.
Proof.
  pose proof (sqrt_lt_R0 v Hv) as S. split; [|split].
  - intros x y [L| ->]; [|lra]. left. apply Phi_mono.
    apply Rmult_lt_compat_r; [apply Rinv_0_lt_compat; assumption|lra].
  - apply (is_lim_comp Phi (fun x => (x - m) / sqrt v) m_infty 0 m_infty);
      [apply Phi_lim_m|apply lin_lim_m|exists 0; intros; discriminate].
  - apply (is_lim_comp Phi (fun x => (x - m) / sqrt v) p_infty 1 p_infty);
      [apply Phi_lim_p|apply lin_lim_p|exists 0; intros; discriminate].
Qed.
End Normal.

(** ** Log-normal *)
Section LogNormal.
Variables m v : R.
Hypothesis Hv : 0 < v.
Let d := mkLogNormal m v.
Lemma log_normal_cdf_Phi x : 0 < x -> log_normal_cdf d x = Ret (normal_F m v (ln x)).
Proof.
  intros Hx. unfold log_normal_cdf, d; cbn [ln_mu ln_s2]. rb. rops. rcase; [lra|].
  rewrite erf_ok. cbn [bind]. lits. unfold normal_F, Phi.
  pose proof sqrt2_pos. pose proof (sqrt_lt_R0 v Hv).
  rewrite (sqrt_mult_alt 2 v) by lra.
  replace ((ln x - m) / (sqrt 2 * sqrt v)) with ((ln x - m) / sqrt v / sqrt 2) by (field; lra).
  f_equal. rops. ring.
Qed.
Lemma log_normal_cdf_neg x : x <= 0 -> log_normal_cdf d x = Ret 0.
Proof. intros Hx. unfold log_normal_cdf. rb. rops. rcase; [reflexivity|lra]. Qed.
End LogNormal.
End ExactErf.

Section LogNormalPdf.
Variables m v : R.
Hypothesis Hv : 0 < v.
Let d := mkLogNormal m v.
Lemma log_normal_pdf_gauss x : 0 < x -> log_normal_pdf d x = gauss m v (ln x) / x.
Proof.
  intros Hx. unfold log_normal_pdf, d; cbn [ln_mu ln_s2]. rb. rops. rcase; [lra|]. lits. rewrite R_pow_2.
  unfold gauss. pose proof (gauss_norm_pos v Hv) as NP.
  replace (v * 2 * PI) with (2 * PI * v) by ring.
  replace (- (1 / 2) * ((ln x - m) * (ln x - m)) / v) with (- ((ln x - m) * (ln x - m)) / (2 * v)) by (field; lra).
  set (s := sqrt (2 * PI * v)) in *.
  assert (0 < s). { rewrite <- (Rinv_inv s). apply Rinv_0_lt_compat. exact NP. }
  field. lra.
Qed.
Lemma log_normal_pdf_neg x : x < 0 -> log_normal_pdf d x = 0.
Proof. intros Hx. unfold log_normal_pdf. rb. rops. rcase; [reflexivity|lra]. Qed.

(** Antiderivative of [x^k pdf(x)]. *)
Definition LF (k : nat) (x : R) : R :=
  exp (INR k * m + INR k * INR k * v / 2) * normal_F (m + INR k * v) v (ln x).
Lemma LF_derive k x : 0 < x -> is_derive (LF k) x (x ^ k * log_normal_pdf d x).
Proof.
  intros Hx. unfold LF. rewrite log_normal_pdf_gauss by assumption.
  set (c := exp (INR k * m + INR k * INR k * v / 2)).
  replace (x ^ k * (gauss m v (ln x) / x)) with (c * (/ x * gauss (m + INR k * v) v (ln x))).
  - apply (is_derive_scal (fun x => normal_F (m + INR k * v) v (ln x)) x c).
    apply (is_derive_comp (normal_F (m + INR k * v) v) ln x).
    + apply normal_F_derive; assumption.
    + apply is_derive_Reals. apply derivable_pt_lim_ln. assumption.
  - unfold gauss, c. replace (x ^ k) with (exp (INR k * ln x)).
    + set (y := ln x). set (n := INR k). set (s := / sqrt (2 * PI * v)).
      transitivity (s * / x * (exp (n * m + n * n * v / 2) * exp (- ((y - (m + n * v)) * (y - (m + n * v))) / (2 * v)))); [ring|].
      transitivity (s * / x * (exp (n * y) * exp (- ((y - m) * (y - m)) / (2 * v)))); [|unfold Rdiv; ring].
      rewrite <- !exp_plus. f_equal. f_equal. field. lra.
    + rewrite <- Rpower_pow by assumption. reflexivity.
Qed.
Lemma ln_lim_0 : filterlim ln (at_right 0) (Rbar_locally m_infty).
Proof. apply is_lim_ln_0. Qed.
Lemma LF_0 k : filterlim (LF k) (at_right 0) (locally 0).
Proof.
  unfold LF. set (c := exp (INR k * m + INR k * INR k * v / 2)).
  replace (locally 0) with (Rbar_locally (Rbar_mult c 0)) by (cbn; rewrite Rmult_0_r; reflexivity).
  apply (filterlim_comp _ _ _ (fun x => ln x) (fun y => c * normal_F (m + INR k * v) v y) (at_right 0) (Rbar_locally m_infty)).
  - apply is_lim_ln_0.
  - apply (is_lim_scal_l (normal_F (m + INR k * v) v) c m_infty 0). apply (normal_F_is_cdf (m + INR k * v) v Hv).
Qed.
Lemma LF_inf k : is_lim (LF k) p_infty (exp (INR k * m + INR k * INR k * v / 2)).
Proof.
  unfold LF. set (c := exp (INR k * m + INR k * INR k * v / 2)).
  replace (Finite c) with (Rbar_mult c 1) by (cbn; f_equal; ring).
  apply is_lim_scal_l. apply (is_lim_comp (normal_F (m + INR k * v) v) ln p_infty 1 p_infty).
  - apply (normal_F_is_cdf (m + INR k * v) v Hv).
  - apply is_lim_ln_p.
  - exists 0. intros. discriminate.
Qed.
Lemma log_normal_moment k : integral_pos (fun x => x ^ k * log_normal_pdf d x) (exp (INR k * m + INR k * INR k * v / 2)).
Proof. exists (LF k). split; [intros; apply LF_derive; assumption|]. split; [apply LF_0|apply LF_inf]. Qed.

Lemma integral_pos_lin (f g : R -> R) a b c :
  integral_pos f a -> integral_pos g b -> integral_pos (fun x => f x + c * g x) (a + c * b).
Proof.
  intros [F [F1 [F2 F3]]] [G' [G1 [G2 G3]]]. exists (fun x => F x + c * G' x). split; [|split].
  - intros x Hx. apply (@is_derive_plus _ R_NormedModule); [apply F1; assumption|].
    apply (is_derive_scal G' x c). apply G1. assumption.
  - assert (L : filterlim (fun x => plus (F x) (scal c (G' x))) (at_right 0) (locally (plus 0 (scal c 0)))).
    { apply (filterlim_comp_2 (F := at_right 0) (G := locally 0) (H := locally (scal c 0)) F (fun x => scal c (G' x)) plus).
      - exact F2.
      - apply (filterlim_comp _ _ _ G' (fun y => scal c y) (at_right 0) (locally 0)); [exact G2|].
        apply (@filterlim_scal_r R_AbsRing R_NormedModule).
      - apply (@filterlim_plus R_AbsRing R_NormedModule). }
    replace (plus 0 (scal c 0)) with 0 in L by (unfold plus, scal; cbn; unfold mult; cbn; ring). exact L.
  - apply is_lim_plus'; [exact F3|]. apply (is_lim_scal_l G' c p_infty b). exact G3.
Qed.
Lemma integral_pos_ext (f g : R -> R) a b : (forall x, 0 < x -> f x = g x) -> a = b ->
  integral_pos f a -> integral_pos g b.
Proof.
  intros E <- [F [F1 F2]]. exists F. split; [|exact F2]. intros x Hx. rewrite <- E by assumption. apply F1. assumption.
Qed.
Lemma log_normal_total : integral_pos (log_normal_pdf d) 1.
Proof.
  eapply (integral_pos_ext (fun x => x ^ 0 * log_normal_pdf d x)); [| |apply (log_normal_moment 0)].
  - intros. cbn. ring.
  - cbn [INR]. replace (0 * m + 0 * 0 * v / 2) with 0 by field. apply exp_0.
Qed.
Lemma log_normal_mean_ok : integral_pos (fun x => x * log_normal_pdf d x) (log_normal_mean d).
Proof.
  eapply (integral_pos_ext (fun x => x ^ 1 * log_normal_pdf d x)); [| |apply (log_normal_moment 1)].
  - intros. cbn. ring.
  - unfold log_normal_mean; cbn [INR ln_mu ln_s2 d]. lits. rops. f_equal. field.
Qed.
Lemma log_normal_variance_ok :
  integral_pos (fun x => (x - log_normal_mean d) ^ 2 * log_normal_pdf d x) (log_normal_variance d).
Proof.
  set (mean := log_normal_mean d).
  pose proof (integral_pos_lin _ _ _ _ (mean * mean)
    (integral_pos_lin _ _ _ _ (- (2 * mean)) (log_normal_moment 2) (log_normal_moment 1)) (log_normal_moment 0)) as I.
  eapply integral_pos_ext; [| |exact I].
  - intros x Hx. cbv beta. cbn [pow]. ring.
  - unfold mean, log_normal_mean, log_normal_variance; cbn [ln_mu ln_s2 d INR]. lits. rops.
    replace ((1 + 1) * m + (1 + 1) * (1 + 1) * v / 2) with (m + m + v + v) by field.
    replace (1 * m + 1 * 1 * v / 2) with (m + v / 2) by field.
    replace (0 * m + 0 * 0 * v / 2) with 0 by field. replace (2 * m + v) with (m + m + v) by ring.
    rewrite exp_0. replace (m + m + v + v) with ((m + v / 2) + (m + v / 2) + v) by field.
    replace (m + m + v) with ((m + v / 2) + (m + v / 2)) by field. rewrite !exp_plus. ring.
Qed.
End LogNormalPdf.

(** The normal law: total mass, mean and variance of the Gaussian density. *)
Lemma gauss_total m v : 0 < v -> integral_line (gauss m v) 1.
Proof.
  intros Hv. exists (normal_F m v), 0. split; [intros; apply normal_F_derive; assumption|].
  destruct (normal_F_is_cdf m v Hv) as [_ [A B]]. rewrite Rplus_0_l. split; assumption.
Qed.

(** An instance with an exact error function. *)
Definition erf_special : Special R := {|
  x_gamma := fun _ => Panic; x_digamma := fun _ => Panic; x_gamma_lr := fun _ _ => Panic;
  x_gamma_ur := fun _ _ => Panic; x_gamma_ur_inv := fun _ _ => Panic;
  x_erf := fun x => Ret (erf_true x);
  x_beta := fun _ _ => Panic; x_beta_inc_reg := fun _ _ _ => Panic; x_f21 := fun _ _ _ _ => Panic |}.
