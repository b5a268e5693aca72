(** Student's t: total mass, mean, variance and third moment, through the beta integral. *)
From Coq Require Import Arith Lia List Bool ZArith Reals Lra Psatz.
From Coquelicot Require Import Coquelicot.
From Verif Require Import Outcome Scalar RealOps Int_model Ode_model Special_model Stat_model.
From Verif Require Import Special_spec Stat_spec Discrete_proofs OdeOrder_proofs Continuous_proofs Normal_proofs Special_proofs GammaFun_proofs GammaDist_proofs StatExtra_proofs StatNew_proofs Stirling_proofs GammaAll_proofs TDist_proofs BetaAcc_proofs DistAcc_proofs.
Local Open Scope R_scope.

Section Fix.
Variable n : R.
Hypothesis Hn : 0 < n.
Set Default Proof Using "All".
Definition tsub (t : R) : R := t * t / (n + t * t).
Lemma tsub_den t : 0 < n + t * t.
Proof. nra. Qed.
Lemma tsub_range t : 0 < t -> 0 < tsub t < 1.
Proof.
  intros Ht. pose proof (tsub_den t). unfold tsub. assert (0 < t * t) by nra. split; [now apply Rdiv_lt_0_compat|].
  apply Rmult_lt_reg_r with (n + t * t); [assumption|]. unfold Rdiv. rewrite Rmult_assoc, Rinv_l by lra. lra.
Qed.
Lemma tsub_0 : filterlim tsub (at_right 0) (at_right 0).
Proof.
  intros P [e He]. apply (near_right _ (Rmin 1 (e * n))); [apply Rmin_glb_lt; [lra|apply Rmult_lt_0_compat; [apply cond_pos|assumption]]|].
  intros t Ht. pose proof (Rmin_l 1 (e * n)). pose proof (Rmin_r 1 (e * n)). destruct (tsub_range t ltac:(lra)) as [A B]. apply He; [|exact A].
  unfold ball; cbn. unfold AbsRing_ball, abs, minus, plus, opp; cbn. replace (tsub t + - 0) with (tsub t) by ring. rewrite Rabs_pos_eq by lra.
  pose proof (tsub_den t). unfold tsub. apply Rmult_lt_reg_r with (n + t * t); [assumption|]. unfold Rdiv. rewrite Rmult_assoc, Rinv_l, Rmult_1_r by lra.
  pose proof (cond_pos e). nra.
Qed.
Lemma tsub_inf : filterlim tsub (Rbar_locally' p_infty) (at_left 1).
Proof.
  intros P [e He]. pose proof (cond_pos e) as Pe. exists (Rmax 1 (n / e)). intros t Ht. pose proof (Rmax_l 1 (n / e)). pose proof (Rmax_r 1 (n / e)).
  destruct (tsub_range t ltac:(lra)) as [A B]. apply He; [|exact B].
  unfold ball; cbn. unfold AbsRing_ball, abs, minus, plus, opp; cbn. rewrite Rabs_left by lra.
  pose proof (tsub_den t). unfold tsub. replace (- (t * t / (n + t * t) + - (1))) with (n / (n + t * t)) by (field; lra).
  apply Rmult_lt_reg_r with (n + t * t); [assumption|]. unfold Rdiv. rewrite Rmult_assoc, Rinv_l, Rmult_1_r by lra.
  assert (n < e * t). { apply Rmult_lt_reg_r with (/ e); [now apply Rinv_0_lt_compat|]. replace (e * t * / e) with t by (field; lra). unfold Rdiv in *. lra. }
  nra.
Qed.
Lemma tsub_kernel t : 0 < t ->
  sqrt n / 2 * (Rpower (tsub t) (1 / 2 - 1) * Rpower (1 - tsub t) (n / 2 - 1) * (2 * n * t / ((n + t * t) * (n + t * t)))) = tker n ((n + 1) / 2) t.
Proof.
  intros Ht. pose proof (tsub_den t) as D. assert (T2 : 0 < t * t) by nra. set (u := 1 + t * t / n). assert (U : 0 < u) by now apply tker_arg.
  assert (E1 : tsub t = t * t / n * / u) by (unfold tsub, u; field; lra). assert (E2 : 1 - tsub t = / u) by (unfold tsub, u; field; lra).
  assert (TN : 0 < t * t / n) by now apply Rdiv_lt_0_compat. assert (IU : 0 < / u) by now apply Rinv_0_lt_compat.
  rewrite E2, E1. unfold tker. fold u. rewrite <- Rpower_mult_distr by assumption.
  assert (PI' : forall r, Rpower (/ u) r = Rpower u (- r)) by (intro r; unfold Rpower; rewrite ln_Rinv by assumption; f_equal; ring).
  rewrite !PI'.
  assert (E3 : Rpower (t * t / n) (1 / 2 - 1) = sqrt n / t).
  { replace (1 / 2 - 1) with (- / 2) by lra. rewrite Rpower_Ropp, Rpower_sqrt by assumption. unfold Rdiv at 1. rewrite sqrt_mult by (try lra; left; now apply Rinv_0_lt_compat).
    rewrite (sqrt_square t) by lra. rewrite sqrt_inv. field. repeat split; (lra || (apply Rgt_not_eq, sqrt_lt_R0; assumption)). }
  rewrite E3. replace (2 * n * t / ((n + t * t) * (n + t * t))) with (2 * t / n * Rpower u (- (2))).
  2:{ replace (- (2)) with (- (1 + 1)) by ring. rewrite Rpower_Ropp, Rpower_plus, Rpower_1 by assumption. unfold u. field. split; lra. }
  replace (- ((n + 1) / 2)) with (- (1 / 2 - 1) + (- (n / 2 - 1) + - (2))) by field.
  rewrite !Rpower_plus. pose proof (sqrt_sqrt n ltac:(lra)) as SS. set (s := sqrt n) in *.
  replace (s / 2 * (s / t * Rpower u (- (1 / 2 - 1)) * Rpower u (- (n / 2 - 1)) * (2 * t / n * Rpower u (- (2)))))
    with (s * s / n * (Rpower u (- (1 / 2 - 1)) * (Rpower u (- (n / 2 - 1)) * Rpower u (- (2))))) by (field; lra).
  rewrite SS. field. lra.
Qed.
Definition tint (x : R) : R := RInt (tker n ((n + 1) / 2)) 0 x.
Lemma tint_derive x : is_derive tint x (tker n ((n + 1) / 2) x).
Proof. apply tker_int_derive. exact Hn. Qed.
Lemma tint_0 : tint 0 = 0.
Proof. unfold tint. rewrite RInt_point. reflexivity. Qed.
Lemma tint_odd x : tint (- x) = - tint x.
Proof.
  assert (C : forall t, is_derive (fun t => tint t + tint (- t)) t 0).
  { intro t. replace 0 with (plus (tker n ((n + 1) / 2) t) (scal (-1) (tker n ((n + 1) / 2) (- t)))).
    - apply (is_derive_plus tint (fun t => tint (- t))); [apply tint_derive|]. apply (is_derive_comp tint (fun t => - t)); [apply tint_derive|]. auto_derive; [exact I|ring].
    - unfold tker. replace (- t * - t) with (t * t) by ring. unfold plus, scal; cbn. unfold mult; cbn. ring. }
  assert (E : forall a b, a < b -> tint a + tint (- a) = tint b + tint (- b)).
  { intros a b H. apply (eq_is_derive (fun t => tint t + tint (- t)) a b); [intros; apply C|exact H]. }
  assert (Z : tint 0 + tint (- 0) = 0) by (rewrite Ropp_0, tint_0; ring).
  destruct (Rtotal_order x 0) as [H|[->|H]]; [pose proof (E x 0 H)|rewrite Ropp_0, tint_0; ring|pose proof (E 0 x H)]; lra.
Qed.
Lemma tint_lim B : euler_beta (1 / 2) (n / 2) B -> is_lim tint p_infty (sqrt n / 2 * B).
Proof.
  intros [F [D [F0 F1]]]. set (G := fun t => sqrt n / 2 * F (tsub t)).
  assert (DG : forall t, 0 < t -> is_derive G t (tker n ((n + 1) / 2) t)).
  { intros t Ht. rewrite <- tsub_kernel by assumption. apply (is_derive_scal (fun t => F (tsub t)) t (sqrt n / 2)).
    rewrite Rmult_comm. apply (is_derive_comp F tsub); [apply D; now apply tsub_range|]. unfold tsub. pose proof (tsub_den t). auto_derive; [lra|]. field. lra. }
  assert (L0 : filterlim G (at_right 0) (locally 0)).
  { apply (filterlim_Rmult (fun _ => sqrt n / 2) (fun t => F (tsub t)) (sqrt n / 2) 0 0); [apply filterlim_const| |ring].
    apply (filterlim_comp _ _ _ tsub F _ (at_right 0)); [apply tsub_0|exact F0]. }
  assert (L1 : is_lim G p_infty (sqrt n / 2 * B)).
  { apply (is_lim_scal_l (fun t => F (tsub t)) (sqrt n / 2) p_infty B). unfold is_lim. apply (filterlim_comp _ _ _ tsub F _ (at_left 1)); [apply tsub_inf|exact F1]. }
  assert (EG : forall x, 0 < x -> G x = tint x).
  { intros x Hx. assert (Cst : forall y, 0 < y -> G y - tint y = G x - tint x).
    { assert (DD : forall t, 0 < t -> is_derive (fun t => G t - tint t) t 0).
      { intros t Ht. replace 0 with (minus (tker n ((n + 1) / 2) t) (tker n ((n + 1) / 2) t)) by (unfold minus, plus, opp; cbn; ring).
        apply (is_derive_minus G tint); [now apply DG|apply tint_derive]. }
      intros y Hy. destruct (Rtotal_order x y) as [H|[->|H]]; [symmetry| reflexivity|].
      - apply (eq_is_derive (fun t => G t - tint t)); [intros t Ht; apply DD; lra|exact H].
      - apply (eq_is_derive (fun t => G t - tint t)); [intros t Ht; apply DD; lra|exact H]. }
    assert (A : filterlim (fun t => G t - tint t) (at_right 0) (locally 0)).
    { apply (filterlim_ext (fun t => G t + tint t * (-1))); [intros; ring|]. apply (filterlim_Rplus G (fun t => tint t * -1) 0 0 0); [exact L0| |ring].
      apply (filterlim_Rmult tint (fun _ => -1) 0 (-1) 0); [|apply filterlim_const|ring]. apply (cont_right tint); [|apply tint_0].
      apply (ex_derive_continuous tint). eexists. apply tint_derive. }
    assert (A' : filterlim (fun t => G t - tint t) (at_right 0) (locally (G x - tint x))).
    { apply (filterlim_ext_loc (fun _ => G x - tint x)); [|apply filterlim_const]. apply (near_right _ 1); [lra|]. intros y Hy. symmetry. apply Cst. lra. }
    pose proof (filterlim_locally_unique _ _ _ A A'). lra. }
  apply (is_lim_ext_loc G); [|exact L1]. exists 0. intros x Hx. now apply EG.
Qed.
Lemma beta_t gs g2 B : euler_gamma ((n + 1) / 2) gs -> euler_gamma (n / 2) g2 -> euler_beta (1 / 2) (n / 2) B -> B = sqrt PI * g2 / gs.
Proof.
  intros Hs H2 HB. apply (beta_gamma (1 / 2) (n / 2) B (sqrt PI) g2 gs); [lra|lra|assumption|apply euler_gamma_half|assumption|].
  replace (1 / 2 + n / 2) with ((n + 1) / 2) by field. exact Hs.
Qed.
(** The normalised density. *)
Definition tnorm (g1 g2 : R) : R := g1 / (sqrt (n * PI) * g2).
Lemma tint_lim_norm g1 g2 : euler_gamma ((n + 1) / 2) g1 -> euler_gamma (n / 2) g2 -> is_lim (fun x => tnorm g1 g2 * tint x) p_infty (1 / 2).
Proof.
  intros H1 H2. destruct (beta_exists (1 / 2) (n / 2) ltac:(lra) ltac:(lra)) as [B HB]. pose proof (beta_t g1 g2 B H1 H2 HB) as E.
  pose proof (tint_lim B HB) as L. pose proof (euler_gamma_pos _ _ H1). pose proof (euler_gamma_pos _ _ H2). pose proof PI_RGT_0.
  replace (1 / 2) with (tnorm g1 g2 * (sqrt n / 2 * B)); [apply (is_lim_scal_l tint (tnorm g1 g2) p_infty (sqrt n / 2 * B)); exact L|].
  rewrite E. unfold tnorm. rewrite sqrt_mult by lra. field. repeat split; try lra; apply Rgt_not_eq, sqrt_lt_R0; lra.
Qed.
Lemma lim_opp_m (f : R -> R) (l : R) : is_lim f p_infty l -> is_lim (fun x => f (- x)) m_infty l.
Proof. intros H. apply (is_lim_comp f (fun x => - x) m_infty l p_infty); [exact H|exact is_lim_opp_m|exists 0; intros; discriminate]. Qed.
Lemma line_of_odd (F f : R -> R) (A : R) : (forall x, is_derive F x (f x)) -> (forall x, F (- x) = - F x) -> is_lim F p_infty A -> integral_line f (2 * A).
Proof.
  intros D O L. exists F, (- A). split; [exact D|]. split.
  - apply (is_lim_ext (fun x => - F (- x))); [intro x; rewrite O; ring|]. apply (is_lim_opp (fun x => F (- x)) m_infty A). now apply lim_opp_m.
  - replace (- A + 2 * A) with A by ring. exact L.
Qed.
Lemma line_of_even (F f : R -> R) (A : R) : (forall x, is_derive F x (f x)) -> (forall x, F (- x) = F x) -> is_lim F p_infty A -> integral_line f 0.
Proof.
  intros D O L. exists F, A. split; [exact D|]. split.
  - apply (is_lim_ext (fun x => F (- x))); [intro x; apply O|]. now apply lim_opp_m.
  - replace (A + 0) with A by ring. exact L.
Qed.
(** Powers of 1 + x^2/n at infinity. *)
Lemma tpow_lim a : 0 < a -> is_lim (fun x => Rpower (1 + x * x / n) (- a)) p_infty 0.
Proof.
  intros Ha. apply is_lim_spec. intros e. pose proof (cond_pos e) as Pe. exists (Rmax 1 (n * Rpower e (- / a))). intros x Hx.
  pose proof (Rmax_l 1 (n * Rpower e (- / a))). pose proof (Rmax_r 1 (n * Rpower e (- / a))).
  assert (PE : 0 < Rpower e (- / a)) by apply exp_pos. replace (Rpower (1 + x * x / n) (- a) - 0) with (Rpower (1 + x * x / n) (- a)) by ring.
  rewrite Rabs_pos_eq by (left; apply exp_pos).
  assert (K : Rpower e (- / a) < 1 + x * x / n).
  { apply Rle_lt_trans with (x / n); [apply Rmult_le_reg_r with n; [exact Hn|]; unfold Rdiv; rewrite Rmult_assoc, Rinv_l by lra; lra|].
    apply Rmult_lt_reg_r with n; [exact Hn|]. replace (x / n * n) with x by (field; lra). replace ((1 + x * x / n) * n) with (n + x * x) by (field; lra). nra. }
  apply Rlt_le_trans with (Rpower (Rpower e (- / a)) (- a)).
  - set (b := Rpower e (- / a)) in *. clearbody b. rewrite !Rpower_Ropp. apply Rinv_lt_contravar; [apply Rmult_lt_0_compat; apply exp_pos|]. unfold Rpower. apply exp_increasing.
    apply Rmult_lt_compat_l; [exact Ha|]. apply ln_increasing; [exact PE|]. exact K.
  - right. rewrite Rpower_mult. replace (- / a * - a) with 1 by (field; lra). apply Rpower_1. exact Pe.
Qed.
Lemma txpow_lim a : 1 / 2 < a -> is_lim (fun x => x * Rpower (1 + x * x / n) (- a)) p_infty 0.
Proof.
  intros Ha. apply (is_lim_le_le_loc (fun _ => 0) (fun x => sqrt n * Rpower (1 + x * x / n) (- (a - 1 / 2)))).
  - exists 0. intros x Hx. pose proof (tker_arg n x Hn) as U. assert (0 <= x * x / n) by lra || (apply Rmult_le_pos; [nra|left; now apply Rinv_0_lt_compat]). split.
    + apply Rmult_le_pos; [lra|left; apply exp_pos].
    + replace (- (a - 1 / 2)) with (/ 2 + - a) by field. rewrite Rpower_plus, Rpower_sqrt by assumption. rewrite <- Rmult_assoc.
      apply Rmult_le_compat_r; [left; apply exp_pos|]. rewrite <- sqrt_mult by lra.
      apply Rle_trans with (sqrt (x * x)); [rewrite sqrt_square; lra|]. apply sqrt_le_1_alt. replace (n * (1 + x * x / n)) with (n + x * x) by (field; lra). lra.
  - apply is_lim_const.
  - replace (Finite 0) with (Rbar_mult (sqrt n) 0) by (cbn; f_equal; ring). apply is_lim_scal_l. apply tpow_lim. lra.
Qed.
Lemma tpow_derive a x : is_derive (fun x => Rpower (1 + x * x / n) (- a)) x (- a * (2 * x / n) * Rpower (1 + x * x / n) (- (a + 1))).
Proof.
  pose proof (tker_arg n x Hn) as U. unfold Rpower. auto_derive; [unfold Rdiv in U; exact U|]. match goal with |- ?p = ?q => change (@eq R p q) end.
  replace (- (a + 1) * ln (1 + x * x / n)) with (- a * ln (1 + x * x / n) + - ln (1 + x * x / n)) by ring. rewrite exp_plus, exp_Ropp, exp_ln by assumption.
  replace (x * x * / n) with (x * x / n) by reflexivity. set (u := exp (- a * ln (1 + x * x / n))). clearbody u. field. split; nra.
Qed.
Let k := (n + 1) / 2.
(** First moment. *)
Lemma t_m1 : 1 < n -> integral_line (fun x => x * tker n k x) 0.
Proof.
  intros H1. assert (K : 0 < k - 1) by (unfold k; lra).
  apply (line_of_even (fun x => - (n / (2 * (k - 1))) * Rpower (1 + x * x / n) (- (k - 1))) _ (- (n / (2 * (k - 1))) * 0)).
  - intro x. replace (x * tker n k x) with (- (n / (2 * (k - 1))) * (- (k - 1) * (2 * x / n) * Rpower (1 + x * x / n) (- (k - 1 + 1)))).
    + apply (is_derive_scal (fun x => Rpower (1 + x * x / n) (- (k - 1))) x (- (n / (2 * (k - 1))))). apply tpow_derive.
    + unfold tker. replace (k - 1 + 1) with k by ring. field. lra.
  - intro x. replace (- x * - x) with (x * x) by ring. reflexivity.
  - apply (is_lim_scal_l (fun x => Rpower (1 + x * x / n) (- (k - 1))) (- (n / (2 * (k - 1)))) p_infty 0). now apply tpow_lim.
Qed.
(** Second moment. *)
Lemma t_m2_anti x : 2 < n -> is_derive (fun x => n / (n - 2) * (tint x - x * Rpower (1 + x * x / n) (- (k - 1)))) x (x * x * tker n k x).
Proof.
  intros H2. pose proof (tker_arg n x Hn) as U.
  replace (x * x * tker n k x) with (n / (n - 2) * (minus (tker n k x) (Rpower (1 + x * x / n) (- (k - 1)) + x * (- (k - 1) * (2 * x / n) * Rpower (1 + x * x / n) (- (k - 1 + 1)))))).
  - apply (is_derive_scal (fun x => tint x - x * Rpower (1 + x * x / n) (- (k - 1))) x (n / (n - 2))).
    apply (is_derive_minus tint (fun x => x * Rpower (1 + x * x / n) (- (k - 1)))); [apply tint_derive|].
    pose proof (is_derive_mult (fun x : R => x) (fun x => Rpower (1 + x * x / n) (- (k - 1))) x 1 _ (is_derive_id x) (tpow_derive (k - 1) x) Rmult_comm) as M.
    unfold plus, mult in M; cbn in M. rewrite Rmult_1_l in M. exact M.
  - unfold tker, minus, plus, opp; cbn. replace (k - 1 + 1) with k by ring. replace (- (k - 1)) with (1 + - k) by ring. rewrite Rpower_plus, Rpower_1 by assumption.
    set (w := Rpower (1 + x * x / n) (- k)). replace k with ((n + 1) / 2) by reflexivity. clearbody w. field. lra.
Qed.
Lemma t_m2 g1 g2 : 2 < n -> euler_gamma (k) g1 -> euler_gamma (n / 2) g2 -> integral_line (fun x => x * x * (tnorm g1 g2 * tker n k x)) (n / (n - 2)).
Proof.
  intros H2 G1 G2. replace (n / (n - 2)) with (2 * (n / (n - 2) * (1 / 2 - tnorm g1 g2 * 0))) by (field; lra).
  apply (line_of_odd (fun x => tnorm g1 g2 * (n / (n - 2) * (tint x - x * Rpower (1 + x * x / n) (- (k - 1)))))).
  - intro x. replace (x * x * (tnorm g1 g2 * tker n k x)) with (tnorm g1 g2 * (x * x * tker n k x)) by ring.
    apply (is_derive_scal (fun x => n / (n - 2) * (tint x - x * Rpower (1 + x * x / n) (- (k - 1)))) x (tnorm g1 g2)). now apply t_m2_anti.
  - intro x. rewrite tint_odd. replace (- x * - x) with (x * x) by ring. ring.
  - apply (is_lim_ext (fun x => n / (n - 2) * (tnorm g1 g2 * tint x - tnorm g1 g2 * (x * Rpower (1 + x * x / n) (- (k - 1)))))); [intro; ring|].
    apply (is_lim_scal_l (fun x => tnorm g1 g2 * tint x - tnorm g1 g2 * (x * Rpower (1 + x * x / n) (- (k - 1)))) (n / (n - 2)) p_infty (1 / 2 - tnorm g1 g2 * 0)).
    apply (is_lim_minus' (fun x => tnorm g1 g2 * tint x) (fun x => tnorm g1 g2 * (x * Rpower (1 + x * x / n) (- (k - 1))))); [now apply tint_lim_norm|].
    apply (is_lim_scal_l (fun x => x * Rpower (1 + x * x / n) (- (k - 1))) (tnorm g1 g2) p_infty 0). apply txpow_lim. unfold k. lra.
Qed.
(** Third moment. *)
Lemma t_m3 : 3 < n -> integral_line (fun x => x * x * x * tker n k x) 0.
Proof.
  intros H3. assert (K1 : 0 < k - 1) by (unfold k; lra). assert (K2 : 0 < k - 2) by (unfold k; lra).
  apply (line_of_even (fun x => - (n * n / (2 * (k - 2))) * Rpower (1 + x * x / n) (- (k - 2)) - - (n * n / (2 * (k - 1))) * Rpower (1 + x * x / n) (- (k - 1))) _ (- (n * n / (2 * (k - 2))) * 0 - - (n * n / (2 * (k - 1))) * 0)).
  - intro x. pose proof (tker_arg n x Hn) as U.
    replace (x * x * x * tker n k x) with (minus (- (n * n / (2 * (k - 2))) * (- (k - 2) * (2 * x / n) * Rpower (1 + x * x / n) (- (k - 2 + 1)))) (- (n * n / (2 * (k - 1))) * (- (k - 1) * (2 * x / n) * Rpower (1 + x * x / n) (- (k - 1 + 1))))).
    + apply (is_derive_minus (fun x => - (n * n / (2 * (k - 2))) * Rpower (1 + x * x / n) (- (k - 2))) (fun x => - (n * n / (2 * (k - 1))) * Rpower (1 + x * x / n) (- (k - 1)))).
      * apply (is_derive_scal (fun x => Rpower (1 + x * x / n) (- (k - 2))) x (- (n * n / (2 * (k - 2))))). apply tpow_derive.
      * apply (is_derive_scal (fun x => Rpower (1 + x * x / n) (- (k - 1))) x (- (n * n / (2 * (k - 1))))). apply tpow_derive.
    + unfold tker, minus, plus, opp; cbn. replace (k - 1 + 1) with k by ring. replace (- (k - 2 + 1)) with (1 + - k) by ring. rewrite Rpower_plus, Rpower_1 by assumption.
      set (w := Rpower (1 + x * x / n) (- k)). clearbody w. field. lra.
  - intro x. replace (- x * - x) with (x * x) by ring. reflexivity.
  - apply (is_lim_minus' (fun x => - (n * n / (2 * (k - 2))) * Rpower (1 + x * x / n) (- (k - 2))) (fun x => - (n * n / (2 * (k - 1))) * Rpower (1 + x * x / n) (- (k - 1)))).
    + apply (is_lim_scal_l (fun x => Rpower (1 + x * x / n) (- (k - 2))) (- (n * n / (2 * (k - 2)))) p_infty 0). now apply tpow_lim.
    + apply (is_lim_scal_l (fun x => Rpower (1 + x * x / n) (- (k - 1))) (- (n * n / (2 * (k - 1)))) p_infty 0). now apply tpow_lim.
Qed.
End Fix.

(** * Student's t with exact gamma functions *)
Lemma td_mass n g1 g2 : 0 < n -> euler_gamma ((n + 1) / 2) g1 -> euler_gamma (n / 2) g2 -> integral_line (fun x => tnorm n g1 g2 * tker n ((n + 1) / 2) x) 1.
Proof.
  intros Hn H1 H2. assert (H : integral_line (fun x => tnorm n g1 g2 * tker n ((n + 1) / 2) x) (2 * (1 / 2))); [|replace (2 * (1 / 2)) with 1 in H by lra; exact H].
  apply (line_of_odd n Hn (fun x => tnorm n g1 g2 * tint n x)).
  - intro x. apply (is_derive_scal (tint n) x (tnorm n g1 g2)). now apply tint_derive.
  - intro x. rewrite tint_odd by assumption. ring.
  - now apply tint_lim_norm.
Qed.
Lemma line_scal (f : R -> R) c v : integral_line f v -> integral_line (fun x => c * f x) (c * v).
Proof.
  intros (F & l & D & L & H). exists (fun x => c * F x), (c * l). split; [intro x; apply (is_derive_scal F x c); apply D|]. split.
  - apply (is_lim_scal_l F c m_infty l). exact L.
  - replace (c * l + c * v) with (c * (l + v)) by ring. apply (is_lim_scal_l F c p_infty (l + v)). exact H.
Qed.
Lemma line_ext (f g : R -> R) v : (forall x, f x = g x) -> integral_line f v -> integral_line g v.
Proof. intros E (F & l & D & H). exists F, l. split; [intro x; rewrite <- E; apply D|exact H]. Qed.
Lemma td_moments (Sp : Special R) n d g1 g2 : 0 < n -> td_new n = Ret d -> x_gamma ((n + 1) / 2) = Ret g1 -> x_gamma (n / 2) = Ret g2 ->
  euler_gamma ((n + 1) / 2) g1 -> euler_gamma (n / 2) g2 ->
  exists p, (forall x, td_pdf d x = Ret (p x) /\ 0 < p x) /\ integral_line p 1 /\
  (forall m, td_mean d = Ret m -> integral_line (fun x => x * p x) m) /\
  (forall inf m s, td_mean d = Ret m -> 2 < n -> td_variance inf d = Ret s -> integral_line (fun x => (x - m) ^ 2 * p x) s) /\
  (forall inf m v s, td_mean d = Ret m -> td_variance inf d = Ret v -> td_skewness d = Ret s -> integral_line (fun x => (x - m) ^ 3 * p x) (s * sqrt v ^ 3)).
Proof.
  intros Hn E E1 E2 H1 H2. destruct (td_new_inv _ _ E) as [_ ->]. pose proof (euler_gamma_pos _ _ H1). pose proof (euler_gamma_pos _ _ H2).
  exists (fun x => tnorm n g1 g2 * tker n ((n + 1) / 2) x). split; [|split; [now apply td_mass|split; [|split]]].
  - intro x. split; [now apply td_pdf_ok|]. unfold tnorm, tker. apply Rmult_lt_0_compat; [|apply exp_pos]. apply Rdiv_lt_0_compat; [assumption|].
    apply Rmult_lt_0_compat; [|assumption]. apply sqrt_lt_R0. apply Rmult_lt_0_compat; [assumption|exact PI_RGT_0].
  - intros m. unfold td_mean; cbn [td_n]. rb. rops. rcase; [|discriminate]. intro M. apply Ret_inj in M. subst m.
    apply (line_ext (fun x => tnorm n g1 g2 * (x * tker n ((n + 1) / 2) x))); [intro; ring|]. replace 0 with (tnorm n g1 g2 * 0) by ring. apply line_scal. now apply t_m1.
  - intros inf m s. unfold td_mean, td_variance; cbn [td_n]. rewrite lit_2. rb. rops. rcase; [|discriminate]. intro M. apply Ret_inj in M. subst m. intro N2. rcase; [|lra].
    intro M. apply Ret_inj in M. subst s. apply (line_ext (fun x => x * x * (tnorm n g1 g2 * tker n ((n + 1) / 2) x))); [intro; ring|]. now apply t_m2.
  - intros inf m v s. unfold td_mean, td_skewness; cbn [td_n]. rewrite lit_R. rb. rops. rcase; [|discriminate]. intro M. apply Ret_inj in M. subst m. intros _. rcase; [discriminate|].
    intro M. apply Ret_inj in M. subst s. rewrite Rmult_0_l.
    apply (line_ext (fun x => tnorm n g1 g2 * (x * x * x * tker n ((n + 1) / 2) x))); [intro; ring|]. replace 0 with (tnorm n g1 g2 * 0) by ring. apply line_scal. apply t_m3; [assumption|lra].
Qed.
Lemma td_cdf_law (Sp : Special R) n d g1 g2 : 0 < n -> td_new n = Ret d ->
  (forall z, z <= 0 -> x_f21 (1 / 2) ((n + 1) / 2) (3 / 2) z = Ret (f21_half ((n + 1) / 2) z)) ->
  x_gamma ((n + 1) / 2) = Ret g1 -> x_gamma (n / 2) = Ret g2 -> euler_gamma ((n + 1) / 2) g1 -> euler_gamma (n / 2) g2 ->
  exists F, (forall x, td_cdf d x = Ret (F x)) /\ is_cdf F.
Proof.
  intros Hn E HF E1 E2 H1 H2. pose proof (euler_gamma_pos _ _ H1) as P1. pose proof (euler_gamma_pos _ _ H2) as P2.
  destruct (td_cdf_full n d g1 g2 Hn E HF E1 E2 P1 P2) as (F & p & EF & Ep & F0 & D & M). exists F. split; [exact EF|].
  destruct (td_new_inv _ _ E) as [_ ->].
  assert (EQ : forall x, F x = 1 / 2 + tnorm n g1 g2 * tint n x).
  { intro x. apply Ret_inj. rewrite <- EF. now apply td_cdf_ok. }
  pose proof (tint_lim_norm n Hn g1 g2 H1 H2) as L.
  assert (LP : is_lim F p_infty 1).
  { apply (is_lim_ext (fun x => 1 / 2 + tnorm n g1 g2 * tint n x)); [intro; now rewrite EQ|]. assert (H : is_lim (fun x => 1 / 2 + tnorm n g1 g2 * tint n x) p_infty (1 / 2 + 1 / 2)); [|replace (1 / 2 + 1 / 2) with 1 in H by lra; exact H].
    apply (is_lim_plus' (fun _ => 1 / 2) (fun x => tnorm n g1 g2 * tint n x)); [apply is_lim_const|exact L]. }
  assert (LM : is_lim F m_infty 0).
  { apply (is_lim_ext (fun x => 1 - F (- x))); [intro x; rewrite !EQ, tint_odd by assumption; field|]. replace 0 with (1 - 1) by ring.
    apply (is_lim_minus' (fun _ => 1) (fun x => F (- x))); [apply is_lim_const|]. now apply (lim_opp_m n Hn). }
  split; [|split; assumption]. intros x y [H| ->]; [left; now apply M|lra].
Qed.
(** * Accuracy with the crate's own gamma and beta functions *)
Lemma rel_mul a b c d e1 e2 : 0 < b -> 0 < d -> 0 <= e1 -> 0 <= e2 -> Rabs (a - b) <= e1 * b -> Rabs (c - d) <= e2 * d -> Rabs (a * c - b * d) <= (e1 + e2 + e1 * e2) * (b * d).
Proof.
  intros Hb Hd H1 H2 Ha Hc. replace (a * c - b * d) with ((a - b) * (c - d) + (a - b) * d + b * (c - d)) by ring.
  eapply Rle_trans; [apply Rabs_triang|]. eapply Rle_trans; [apply Rplus_le_compat_r, Rabs_triang|]. rewrite !Rabs_mult, (Rabs_pos_eq b), (Rabs_pos_eq d) by lra.
  assert (Rabs (a - b) * Rabs (c - d) <= (e1 * b) * (e2 * d)) by (apply Rmult_le_compat; (apply Rabs_pos || assumption)).
  assert (Rabs (a - b) * d <= e1 * b * d) by (apply Rmult_le_compat_r; lra). assert (b * Rabs (c - d) <= b * (e2 * d)) by (apply Rmult_le_compat_l; lra). lra.
Qed.
Lemma tnorm_acc n g1 g2 : 0 < n -> euler_gamma ((n + 1) / 2) g1 -> euler_gamma (n / 2) g2 ->
  exists v1 v2, sgamma ((n + 1) / 2) = Ret v1 /\ sgamma (n / 2) = Ret v2 /\ 0 < v1 /\ 0 < v2 /\ Rabs (tnorm n v1 v2 - tnorm n g1 g2) <= 12 / 1000000000000 * tnorm n g1 g2.
Proof.
  intros Hn H1 H2. pose proof (euler_gamma_pos _ _ H1) as P1. pose proof (euler_gamma_pos _ _ H2) as P2.
  destruct (sgamma_accuracy _ _ (euler_is_gamma ((n + 1) / 2) g1 ltac:(lra) H1)) as (v1 & E1 & A1). destruct (sgamma_pos_acc (n / 2) g2 ltac:(lra) H2) as (v2 & E2 & V2 & A2).
  destruct (rel_inv g1 v1 P1 A1) as [V1 _]. rewrite (Rabs_pos_eq g1) in A1 by lra. exists v1, v2. repeat (split; [assumption|]).
  assert (S : 0 < sqrt (n * PI)) by (apply sqrt_lt_R0, Rmult_lt_0_compat; [assumption|exact PI_RGT_0]). set (s := sqrt (n * PI)) in *. unfold tnorm. fold s.
  replace (v1 / (s * v2) - g1 / (s * g2)) with (/ s * (v1 * / v2 - g1 * / g2)) by (field; lra). rewrite Rabs_mult, (Rabs_pos_eq (/ s)) by (left; now apply Rinv_0_lt_compat).
  replace (g1 / (s * g2)) with (/ s * (g1 * / g2)) by (field; lra). pose proof (Rinv_0_lt_compat _ P2) as I2.
  pose proof (rel_mul v1 g1 (/ v2) (/ g2) (5 / 1000000000000) (6 / 1000000000000) P1 I2 ltac:(lra) ltac:(lra) A1 A2) as M. pose proof (Rmult_lt_0_compat _ _ P1 I2) as PP.
  rewrite <- Rmult_assoc, (Rmult_comm _ (/ s)), Rmult_assoc. apply Rmult_le_compat_l; [left; now apply Rinv_0_lt_compat|]. set (w := g1 * / g2) in *. lra.
Qed.
Lemma td_pdf_acc fuel n d g1 g2 x : 0 < n -> td_new n = Ret d -> euler_gamma ((n + 1) / 2) g1 -> euler_gamma (n / 2) g2 ->
  exists v, td_pdf (Sp := impl_special fuel) d x = Ret v /\
  Rabs (v - g1 / (sqrt (n * PI) * g2) * Rpower (1 + x * x / n) (- ((n + 1) / 2))) <= 12 / 1000000000000 * (g1 / (sqrt (n * PI) * g2) * Rpower (1 + x * x / n) (- ((n + 1) / 2))).
Proof.
  intros Hn E H1 H2. destruct (td_new_inv _ _ E) as [_ ->]. destruct (tnorm_acc n g1 g2 Hn H1 H2) as (v1 & v2 & E1 & E2 & V1 & V2 & A).
  eexists. split; [apply (td_pdf_ok (Sp := impl_special fuel) n v1 v2 x Hn); assumption|]. unfold tker. set (w := Rpower (1 + x * x / n) (- ((n + 1) / 2))).
  assert (W : 0 < w) by apply exp_pos. unfold tnorm in A. rewrite <- Rmult_minus_distr_r, Rabs_mult, (Rabs_pos_eq w) by lra. rewrite <- Rmult_assoc. apply Rmult_le_compat_r; [lra|exact A].
Qed.
Lemma beta_pdf_acc fuel p q b d x : 0 < p -> beta_new p q = Ret d -> 0 < x < 1 -> euler_beta p q b ->
  exists v, beta_pdf (Sp := impl_special fuel) d x = Ret v /\
  Rabs (v - Rpower x (p - 1) * Rpower (1 - x) (q - 1) / b) <= 17 / 1000000000000 * (Rpower x (p - 1) * Rpower (1 - x) (q - 1) / b).
Proof.
  intros Hp E Hx Hb. destruct (beta_new_inv _ _ _ E) as [[_ Hq] ->]. destruct (sbeta_accuracy p q b Hp Hq Hb) as (w & Ew & Pw & _ & A).
  exists (bpdf p q w x). split; [now apply beta_pdf_eq|]. unfold bpdf. set (r := Rpower x (p - 1) * Rpower (1 - x) (q - 1)).
  assert (P : 0 < r) by (apply Rmult_lt_0_compat; apply exp_pos). unfold Rdiv at 1 2. rewrite <- Rmult_minus_distr_l, Rabs_mult, (Rabs_pos_eq r) by lra.
  replace (17 / 1000000000000 * (r / b)) with (r * (17 / 1000000000000 * / b)) by (unfold Rdiv; ring). apply Rmult_le_compat_l; lra.
Qed.
Lemma beta_cdf_acc_low p q b d F x : 0 < p -> beta_new p q = Ret d -> p + q <= 1073741823 -> 0 < x < 1 -> x <= beta_mean d -> euler_beta p q b -> incomplete_beta p q F ->
  exists k v, (forall fuel, (k <= fuel)%nat -> beta_cdf (Sp := impl_special fuel) d x = Ret v) /\
  Rabs (v - F x / b) <= 1 / 1000000000000000 * Rmax (x / (1 - x)) (q - 1) * v + 17 / 1000000000000 * (F x / b).
Proof.
  intros Hp E Hs Hx Hm Hb HF. destruct (beta_new_inv _ _ _ E) as [[_ Hq] ->]. unfold beta_mean in Hm; cbn [be_p be_q] in Hm. revert Hm; rops; intro Hm.
  assert (M : x * (p + q) <= p). { apply Rmult_le_reg_r with (/ (p + q)); [apply Rinv_0_lt_compat; lra|]. rewrite Rmult_assoc, Rinv_r by lra. unfold Rdiv in Hm. lra. }
  destruct (inc_reg_low p q x b F Hp Hq Hx M Hs Hb HF) as (k & v & Ev & _ & A). exists k, v. split; [|exact A].
  intros fuel Hf. unfold beta_cdf; cbn [be_p be_q x_beta_inc_reg impl_special]. rewrite Ev by exact Hf. reflexivity.
Qed.
Lemma beta_cdf_acc_high p q b d F x : 0 < p -> beta_new p q = Ret d -> p + q <= 1073741823 -> 0 < x < 1 -> beta_mean d < x -> euler_beta p q b -> incomplete_beta p q F ->
  exists k v, (forall fuel, (k <= fuel)%nat -> beta_cdf (Sp := impl_special fuel) d x = Ret v) /\
  Rabs (v - F x / b) <= 1 / 1000000000000000 * Rmax ((1 - x) / x) (p - 1) * (1 - v) + 17 / 1000000000000 * (1 - F x / b).
Proof.
  intros Hp E Hs Hx Hm Hb HF. destruct (beta_new_inv _ _ _ E) as [[_ Hq] ->]. unfold beta_mean in Hm; cbn [be_p be_q] in Hm. revert Hm; rops; intro Hm.
  assert (M : p < x * (p + q)). { apply Rmult_lt_reg_r with (/ (p + q)); [apply Rinv_0_lt_compat; lra|]. rewrite (Rmult_assoc x), Rinv_r by lra. unfold Rdiv in Hm. lra. }
  destruct (inc_reg_high p q x b F Hp Hq Hx M Hs Hb HF) as (k & v & Ev & _ & A). exists k, v. split; [|exact A].
  intros fuel Hf. unfold beta_cdf; cbn [be_p be_q x_beta_inc_reg impl_special]. rewrite Ev by exact Hf. reflexivity.
Qed.
(** * Where the moments do not exist *)
Lemma no_line n (f : R -> R) c x0 : 0 < n -> 0 < c -> (forall x, x0 <= x -> c * (x / (1 + x * x / n)) <= f x) -> ~ exists v, integral_line f v.
Proof.
  intros Hn Hc Hf [v (F & l & D & _ & L)]. set (L0 := fun x => c * (n / 2) * ln (1 + x * x / n)).
  assert (DL : forall x, is_derive L0 x (c * (x / (1 + x * x / n)))).
  { intro x. pose proof (tker_arg n x Hn) as U. unfold L0. auto_derive; [unfold Rdiv in U; exact U|]. match goal with |- ?p = ?q => change (@eq R p q) end. field. split; nra. }
  assert (M : forall x, x0 < x -> F x0 - L0 x0 <= F x - L0 x).
  { intros x Hx. destruct (MVT_gen (fun x => F x - L0 x) x0 x (fun x => f x - c * (x / (1 + x * x / n)))) as (y & Hy & E).
    - intros t _. apply (@is_derive_minus R_AbsRing R_NormedModule F L0); [apply D|apply DL].
    - intros t _. apply continuity_pt_filterlim. apply (ex_derive_continuous (fun x => F x - L0 x) t). exists (f t - c * (t / (1 + t * t / n))).
      apply (@is_derive_minus R_AbsRing R_NormedModule F L0); [apply D|apply DL].
    - rewrite Rmin_left, Rmax_right in Hy by lra. pose proof (Hf y ltac:(lra)). nra. }
  apply is_lim_spec in L. destruct (L (mkposreal 1 Rlt_0_1)) as [m Hm]; cbn in Hm.
  set (K := (l + v + 1 - F x0 + L0 x0) / (c * (n / 2))).
  set (x := Rmax (Rmax (x0 + 1) (m + 1)) (Rmax 1 (n * exp K))).
  assert (x0 + 1 <= x /\ m + 1 <= x /\ 1 <= x /\ n * exp K <= x) as (X1 & X2 & X3 & X4).
  { unfold x. repeat split; [eapply Rle_trans; [|apply Rmax_l]; apply Rmax_l|eapply Rle_trans; [|apply Rmax_l]; apply Rmax_r|eapply Rle_trans; [|apply Rmax_r]; apply Rmax_l|eapply Rle_trans; [|apply Rmax_r]; apply Rmax_r]. }
  pose proof (M x ltac:(lra)) as M1. pose proof (Hm x ltac:(lra)) as M2. apply Rabs_def2 in M2.
  assert (LN : K < ln (1 + x * x / n)).
  { rewrite <- (ln_exp K). apply ln_increasing; [apply exp_pos|]. apply Rmult_lt_reg_r with n; [exact Hn|]. replace ((1 + x * x / n) * n) with (n + x * x) by (field; lra). nra. }
  assert (CN : 0 < c * (n / 2)) by (apply Rmult_lt_0_compat; lra).
  apply Rmult_lt_compat_l with (r := c * (n / 2)) in LN; [|exact CN]. unfold K in LN. replace (c * (n / 2) * ((l + v + 1 - F x0 + L0 x0) / (c * (n / 2)))) with (l + v + 1 - F x0 + L0 x0) in LN by (field; lra).
  unfold L0 in M1 at 2. lra.
Qed.
Lemma Rpower_le_base u a b : 1 <= u -> a <= b -> Rpower u a <= Rpower u b.
Proof. intros [H| <-] [K| ->]; try lra; [left; now apply Rpower_lt|]. unfold Rpower. rewrite ln_1, !Rmult_0_r. lra. Qed.
Lemma tker_ge1 n t : 0 < n -> 1 <= 1 + t * t / n.
Proof. intros Hn. assert (0 <= t * t / n); [|lra]. apply Rmult_le_pos; [nra|left; now apply Rinv_0_lt_compat]. Qed.
Lemma half_u n x : 0 < n -> n <= x * x -> n / 2 * (1 + x * x / n) <= x * x.
Proof. intros Hn H. replace (n / 2 * (1 + x * x / n)) with ((n + x * x) / 2) by (field; lra). lra. Qed.
Lemma t_no_m1 n c : 0 < n <= 1 -> 0 < c -> ~ exists v, integral_line (fun x => x * (c * tker n ((n + 1) / 2) x)) v.
Proof.
  intros [Hn N] Hc. apply (no_line n _ c 0 Hn Hc). intros x Hx. pose proof (tker_ge1 n x Hn) as U. unfold tker.
  pose proof (Rpower_le_base (1 + x * x / n) (- (1)) (- ((n + 1) / 2)) U ltac:(lra)) as P. rewrite Rpower_Ropp, Rpower_1 in P by lra.
  unfold Rdiv at 1. replace (x * (c * Rpower (1 + x * x / n) (- ((n + 1) / 2)))) with (c * (x * Rpower (1 + x * x / n) (- ((n + 1) / 2)))) by ring.
  apply Rmult_le_compat_l; [lra|]. apply Rmult_le_compat_l; assumption.
Qed.
Lemma t_no_m2 n c : 0 < n <= 2 -> 0 < c -> ~ exists v, integral_line (fun x => x * x * (c * tker n ((n + 1) / 2) x)) v.
Proof.
  intros [Hn N] Hc. apply (no_line n _ (c * sqrt (n / 2)) (n + 1) Hn); [apply Rmult_lt_0_compat; [assumption|apply sqrt_lt_R0; lra]|].
  intros x Hx. pose proof (tker_ge1 n x Hn) as U. unfold tker. set (u := 1 + x * x / n) in *.
  pose proof (Rpower_le_base u (- (1 + / 2)) (- ((n + 1) / 2)) U ltac:(lra)) as P. rewrite Rpower_Ropp, Rpower_plus, Rpower_1, Rpower_sqrt in P by lra.
  assert (SU : 0 < sqrt u) by (apply sqrt_lt_R0; lra).
  assert (Q : sqrt (n / 2) * sqrt u <= x). { rewrite <- sqrt_mult by lra. rewrite <- (sqrt_square x) by lra. apply sqrt_le_1_alt. apply half_u; [lra|nra]. }
  apply Rle_trans with (x * x * (c * / (u * sqrt u))).
  - replace (c * sqrt (n / 2) * (x / u)) with (c * x * / u * (sqrt (n / 2) * sqrt u * / sqrt u)) by (field; lra).
    replace (x * x * (c * / (u * sqrt u))) with (c * x * / u * (x * / sqrt u)) by (field; lra).
    apply Rmult_le_compat_l; [apply Rmult_le_pos; [nra|left; apply Rinv_0_lt_compat; lra]|]. apply Rmult_le_compat_r; [left; now apply Rinv_0_lt_compat|exact Q].
  - apply Rmult_le_compat_l; [nra|]. apply Rmult_le_compat_l; [lra|exact P].
Qed.
Lemma t_no_m3 n c : 0 < n <= 3 -> 0 < c -> ~ exists v, integral_line (fun x => x * x * x * (c * tker n ((n + 1) / 2) x)) v.
Proof.
  intros [Hn N] Hc. apply (no_line n _ (c * (n / 2)) (n + 1) Hn); [apply Rmult_lt_0_compat; lra|].
  intros x Hx. pose proof (tker_ge1 n x Hn) as U. unfold tker. pose proof (half_u n x Hn ltac:(nra)) as Q. set (u := 1 + x * x / n) in *.
  pose proof (Rpower_le_base u (- (1 + 1)) (- ((n + 1) / 2)) U ltac:(lra)) as P. rewrite Rpower_Ropp, Rpower_plus, Rpower_1 in P by lra.
  apply Rle_trans with (x * x * x * (c * / (u * u))).
  - replace (c * (n / 2) * (x / u)) with (c * x * / (u * u) * (n / 2 * u)) by (field; lra). replace (x * x * x * (c * / (u * u))) with (c * x * / (u * u) * (x * x)) by (field; lra).
    apply Rmult_le_compat_l; [apply Rmult_le_pos; [nra|left; apply Rinv_0_lt_compat; nra]|exact Q].
  - apply Rmult_le_compat_l; [assert (0 <= x) by lra; apply Rmult_le_pos; nra|]. apply Rmult_le_compat_l; [lra|exact P].
Qed.
Lemma td_no_moments (Sp : Special R) n d g1 g2 : 0 < n -> td_new n = Ret d -> x_gamma ((n + 1) / 2) = Ret g1 -> x_gamma (n / 2) = Ret g2 -> 0 < g1 -> 0 < g2 ->
  exists p, (forall x, td_pdf d x = Ret (p x)) /\
  (td_mean d = Panic -> ~ exists v, integral_line (fun x => x * p x) v) /\
  (n <= 2 -> ~ exists v, integral_line (fun x => x ^ 2 * p x) v) /\
  (td_skewness d = Panic -> ~ exists v, integral_line (fun x => x ^ 3 * p x) v).
Proof.
  intros Hn E E1 E2 P1 P2. destruct (td_new_inv _ _ E) as [_ ->]. exists (fun x => tnorm n g1 g2 * tker n ((n + 1) / 2) x).
  assert (C : 0 < tnorm n g1 g2). { unfold tnorm. apply Rdiv_lt_0_compat; [assumption|]. apply Rmult_lt_0_compat; [|assumption]. apply sqrt_lt_R0. apply Rmult_lt_0_compat; [assumption|exact PI_RGT_0]. }
  split; [intro x; now apply td_pdf_ok|]. split; [|split].
  - unfold td_mean; cbn [td_n]. rb. rops. rcase; [discriminate|]. intros _. apply t_no_m1; [lra|assumption].
  - intros N [v H]. apply (t_no_m2 n (tnorm n g1 g2)); [lra|assumption|]. exists v. revert H. apply line_ext. intro x. ring.
  - unfold td_skewness; cbn [td_n]. rewrite lit_R. rb. rops. rcase; [|discriminate]. intros _ [v H]. apply (t_no_m3 n (tnorm n g1 g2)); [lra|assumption|]. exists v. revert H. apply line_ext. intro x. ring.
Qed.
