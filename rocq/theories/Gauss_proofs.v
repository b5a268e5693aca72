(** The Gaussian integral and the error function. *)
From Coq Require Import Reals Lra Ranalysis.
From Coquelicot Require Import Coquelicot.
From Verif Require Import Stat_spec.
Local Open Scope R_scope.

Definition gexp (t : R) : R := exp (- (t * t)).
Lemma gexp_cont x : continuous gexp x.
Proof. apply (ex_derive_continuous gexp). unfold gexp. auto_derive. auto. Qed.
Lemma gexp_ex a b : ex_RInt gexp a b.
Proof. apply (@ex_RInt_continuous R_CompleteNormedModule). intros. apply gexp_cont. Qed.
Definition G (x : R) : R := RInt gexp 0 x.
Lemma G_derive x : is_derive G x (gexp x).
Proof.
  unfold G. apply (is_derive_RInt gexp (fun x => RInt gexp 0 x) 0 x).
  - exists (mkposreal 1 Rlt_0_1). intros y _. apply (@RInt_correct R_CompleteNormedModule). apply gexp_ex.
  - apply gexp_cont.
Qed.
Lemma G_0 : G 0 = 0.
Proof. unfold G. rewrite RInt_point. reflexivity. Qed.

Definition hf (x t : R) : R := exp (- (x * x) * (1 + t * t)) / (1 + t * t).
Lemma one_sq t : 0 < 1 + t * t.
Proof. pose proof (Rle_0_sqr t). unfold Rsqr in *. lra. Qed.
Lemma hf_cont x t : continuous (hf x) t.
Proof. apply (ex_derive_continuous (hf x)). unfold hf. pose proof (one_sq t). auto_derive. lra. Qed.
Lemma hf_ex x a b : ex_RInt (hf x) a b.
Proof. apply (@ex_RInt_continuous R_CompleteNormedModule). intros. apply hf_cont. Qed.
Definition H (x : R) : R := RInt (hf x) 0 1.

Definition hd (x t : R) : R := - (2 * x) * exp (- (x * x) * (1 + t * t)).
Lemma hf_derive x t : is_derive (fun u => hf u t) x (hd x t).
Proof. unfold hf, hd. pose proof (one_sq t). auto_derive; [lra|]. field. lra. Qed.

Lemma hd_cont2 x t : continuity_2d_pt hd x t.
Proof.
  unfold hd. apply continuity_2d_pt_mult.
  - apply continuity_2d_pt_opp, continuity_2d_pt_mult; [apply continuity_2d_pt_const|apply continuity_2d_pt_id1].
  - apply (continuity_1d_2d_pt_comp exp (fun x t => - (x * x) * (1 + t * t))).
    + apply derivable_continuous_pt, derivable_pt_exp.
    + apply continuity_2d_pt_mult.
      * apply continuity_2d_pt_opp, continuity_2d_pt_mult; apply continuity_2d_pt_id1.
      * apply continuity_2d_pt_plus; [apply continuity_2d_pt_const|].
        apply continuity_2d_pt_mult; apply continuity_2d_pt_id2.
Qed.

Lemma H_derive x : is_derive H x (RInt (hd x) 0 1).
Proof.
  unfold H. replace (RInt (hd x) 0 1) with (RInt (fun t => Derive (fun u => hf u t) x) 0 1).
  - apply (is_derive_RInt_param hf 0 1 x).
    + exists (mkposreal 1 Rlt_0_1). intros y _ t _. exists (hd y t). apply hf_derive.
    + intros t _. apply (continuity_2d_pt_ext hd).
      * intros u v. symmetry. apply is_derive_unique, hf_derive.
      * apply hd_cont2.
    + exists (mkposreal 1 Rlt_0_1). intros y _. apply hf_ex.
  - apply RInt_ext. intros t _. apply is_derive_unique, hf_derive.
Qed.

Lemma hd_int x : RInt (hd x) 0 1 = - (2 * gexp x) * G x.
Proof.
  apply is_RInt_unique.
  assert (I : is_RInt (fun t => scal x (gexp (x * t + 0))) 0 1 (G x)).
  { apply (is_RInt_comp_lin gexp x 0 0 1). replace (x * 0 + 0) with 0 by ring.
    replace (x * 1 + 0) with x by ring. apply (@RInt_correct R_CompleteNormedModule). apply gexp_ex. }
  apply (is_RInt_scal _ 0 1 (- (2 * gexp x))) in I.
  eapply is_RInt_ext; [|exact I]. intros t _. unfold scal; cbn; unfold mult; cbn. unfold hd, gexp.
  replace (- (x * x) * (1 + t * t)) with (- (x * x) + - ((x * t + 0) * (x * t + 0))) by ring.
  rewrite exp_plus. ring.
Qed.

Lemma GH_const x : G x * G x + H x = PI / 4.
Proof.
  assert (D : forall y, is_derive (fun x => G x * G x + H x) y 0).
  { intros y. replace 0 with (plus (gexp y * G y + G y * gexp y) (RInt (hd y) 0 1)).
    - apply (@is_derive_plus _ R_NormedModule); [|apply H_derive].
      apply (is_derive_mult G G y); [apply G_derive|apply G_derive|intros; apply Rmult_comm].
    - rewrite hd_int. unfold plus; cbn. ring. }
  assert (E : G x * G x + H x = G 0 * G 0 + H 0).
  { destruct (MVT_gen (fun x => G x * G x + H x) 0 x (fun _ => 0)) as [c [_ E]].
    - intros y _. apply D.
    - intros y _. apply continuity_pt_filterlim. apply (ex_derive_continuous (fun x => G x * G x + H x)).
      exists 0. apply D.
    - lra. }
  rewrite E, G_0. unfold H. rewrite Rmult_0_l, Rplus_0_l.
  apply is_RInt_unique.
  replace (PI / 4) with (atan 1 - atan 0) by (rewrite atan_1, atan_0; ring).
  apply (is_RInt_ext (fun t => / (1 + t ^ 2))).
  - intros t _. unfold hf. replace (- (0 * 0) * (1 + t * t)) with 0 by ring. rewrite exp_0.
    pose proof (one_sq t). change (/ (1 + t ^ 2) = 1 / (1 + t * t)). field. lra.
  - apply (is_RInt_derive atan (fun t => / (1 + t ^ 2)) 0 1).
    + intros t _. apply is_derive_Reals. apply derivable_pt_lim_atan.
    + intros t _. apply (ex_derive_continuous (fun t => / (1 + t ^ 2))). pose proof (one_sq t).
      auto_derive. cbn. lra.
Qed.

Lemma H_bounds x : 0 <= H x <= exp (- (x * x)).
Proof.
  assert (B : forall t, 0 <= hf x t <= exp (- (x * x))).
  { intros t. pose proof (one_sq t) as P. pose proof (Rle_0_sqr t) as S. unfold Rsqr in S.
    unfold hf. pose proof (exp_pos (- (x * x) * (1 + t * t))) as EP. split.
    - apply Rmult_le_pos; [lra|]. left. apply Rinv_0_lt_compat. assumption.
    - apply Rle_trans with (exp (- (x * x) * (1 + t * t))).
      + rewrite <- (Rmult_1_r (exp (- (x * x) * (1 + t * t)))) at 2. apply Rmult_le_compat_l; [lra|].
        rewrite <- Rinv_1. apply Rinv_le_contravar; lra.
      + pose proof (Rle_0_sqr x) as X. unfold Rsqr in X.
        assert (Y : 0 <= (x * x) * (t * t)) by (apply Rmult_le_pos; assumption).
        destruct (Rle_lt_or_eq_dec _ _ Y) as [L|E].
        * left. apply exp_increasing. lra.
        * right. f_equal. lra. }
  unfold H. split.
  - apply RInt_ge_0; [lra|apply hf_ex|]. intros t _. apply B.
  - replace (exp (- (x * x))) with (RInt (fun _ => exp (- (x * x))) 0 1).
    + apply RInt_le; [lra|apply hf_ex|apply ex_RInt_const|]. intros t _. apply B.
    + rewrite RInt_const. unfold scal; cbn; unfold mult; cbn. ring.
Qed.

Lemma G_nonneg x : 0 <= x -> 0 <= G x.
Proof.
  intros. unfold G. apply RInt_ge_0; [assumption|apply gexp_ex|]. intros t _. left. apply exp_pos.
Qed.

Lemma G_lim : is_lim G p_infty (sqrt PI / 2).
Proof.
  assert (HL : is_lim H p_infty 0).
  { apply (is_lim_le_le_loc (fun _ => 0) (fun x => exp (- x))).
    - exists 1. intros x Hx. destruct (H_bounds x) as [A B]. split; [assumption|].
      apply Rle_trans with (1 := B). left. apply exp_increasing. assert (1 * x < x * x) by (apply Rmult_lt_compat_r; lra). lra.
    - apply is_lim_const.
    - apply (is_lim_comp exp (fun x => - x) p_infty 0 m_infty).
      + apply is_lim_exp_m.
      + apply (is_lim_opp (fun x => x) p_infty p_infty). apply is_lim_id.
      + exists 0. intros. discriminate. }
  assert (SQ : sqrt (PI / 4) = sqrt PI / 2).
  { rewrite sqrt_div_alt by lra. f_equal. replace 4 with (2 * 2) by ring. apply sqrt_square. lra. }
  apply (is_lim_ext_loc (fun x => sqrt (PI / 4 - H x))).
  - exists 0. intros x Hx. rewrite <- (GH_const x). replace (G x * G x + H x - H x) with (G x * G x) by ring.
    apply sqrt_square, G_nonneg. lra.
  - rewrite <- SQ. apply (is_lim_comp_continuous (fun x => PI / 4 - H x) sqrt p_infty (PI / 4)).
    + assert (Z : is_lim (fun x => PI / 4 - H x) p_infty (PI / 4 - 0)) by (apply is_lim_minus'; [apply is_lim_const|exact HL]).
      rewrite Rminus_0_r in Z. exact Z.
    + apply continuity_pt_filterlim. apply continuity_pt_sqrt. pose proof PI_RGT_0. lra.
Qed.

(** ** The error function *)
Lemma G_odd x : G (- x) = - G x.
Proof.
  unfold G. apply is_RInt_unique.
  replace (- RInt gexp 0 x) with (opp (RInt gexp 0 x)) by reflexivity.
  assert (I : is_RInt (fun t => scal (-1) (gexp (-1 * t + 0))) 0 (- x) (RInt gexp 0 x)).
  { apply (is_RInt_comp_lin gexp (-1) 0 0 (- x)). replace (-1 * 0 + 0) with 0 by ring.
    replace (-1 * - x + 0) with x by ring. apply (@RInt_correct R_CompleteNormedModule). apply gexp_ex. }
  apply (@is_RInt_opp R_NormedModule) in I.
  eapply is_RInt_ext; [|exact I]. intros t _. unfold scal; cbn; unfold mult, opp; cbn. unfold gexp.
  replace ((-1 * t + 0) * (-1 * t + 0)) with (t * t) by ring. ring.
Qed.
Lemma erf_true_G x : erf_true x = 2 / sqrt PI * G x.
Proof. reflexivity. Qed.
Lemma sqrt_PI_pos : 0 < sqrt PI.
Proof. apply sqrt_lt_R0, PI_RGT_0. Qed.
Lemma erf_true_odd x : erf_true (- x) = - erf_true x.
Proof. rewrite !erf_true_G, G_odd. ring. Qed.
Lemma erf_true_0 : erf_true 0 = 0.
Proof. rewrite erf_true_G, G_0. ring. Qed.
Lemma erf_true_derive x : is_derive erf_true x (2 / sqrt PI * exp (- (x * x))).
Proof.
  apply (is_derive_ext (fun x => 2 / sqrt PI * G x)); [reflexivity|].
  apply (is_derive_scal G x (2 / sqrt PI)). apply G_derive.
Qed.
Lemma erf_true_lim_p : is_lim erf_true p_infty 1.
Proof.
  pose proof sqrt_PI_pos. replace 1 with (2 / sqrt PI * (sqrt PI / 2)) by (field; lra).
  apply (is_lim_ext (fun x => 2 / sqrt PI * G x)); [reflexivity|].
  apply (is_lim_scal_l G (2 / sqrt PI) p_infty (sqrt PI / 2)). apply G_lim.
Qed.
Lemma erf_true_lim_m : is_lim erf_true m_infty (-1).
Proof.
  apply (is_lim_ext (fun x => - erf_true (- x))).
  - intros x. rewrite erf_true_odd. ring.
  - replace (Finite (-1)) with (Rbar_opp 1) by (cbn; f_equal; ring). apply is_lim_opp.
    apply (is_lim_comp erf_true (fun x => - x) m_infty 1 p_infty).
    + apply erf_true_lim_p.
    + apply (is_lim_opp (fun x => x) m_infty m_infty). apply is_lim_id.
    + exists 0. intros. discriminate.
Qed.
Lemma erf_true_mono x y : x < y -> erf_true x < erf_true y.
Proof.
  intros Hxy. destruct (MVT_gen erf_true x y (fun x => 2 / sqrt PI * exp (- (x * x)))) as [c [_ E]].
  - intros t _. apply erf_true_derive.
  - intros t _. apply continuity_pt_filterlim. apply (ex_derive_continuous erf_true).
    eexists. apply erf_true_derive.
  - assert (0 < 2 / sqrt PI * exp (- (c * c)) * (y - x)); [|lra].
    apply Rmult_lt_0_compat; [|lra]. apply Rmult_lt_0_compat; [|apply exp_pos].
    apply Rdiv_lt_0_compat; [lra|apply sqrt_PI_pos].
Qed.
