(** Facts about Euler's integrals and the regularised incomplete gamma function. *)
From Coq Require Import Arith Lia List Bool ZArith Reals Lra.
From Coquelicot Require Import Coquelicot.
From Verif Require Import Stat_spec Continuous_proofs Gauss_proofs Normal_proofs.
Local Open Scope R_scope.

Lemma at_right_pos (P : R -> Prop) : (forall x, 0 < x -> P x) -> at_right 0 P.
Proof. intros H. exists posreal_one. intros y _ Hy. apply H. exact Hy. Qed.
Lemma at_left_one (P : R -> Prop) : (forall x, 0 < x < 1 -> P x) -> at_left 1 P.
Proof.
  intros H. exists posreal_one. intros y Hy Hl. apply H. unfold ball in Hy; cbn in Hy.
  unfold AbsRing_ball, abs, minus, plus, opp in Hy; cbn in Hy. apply Rabs_def2 in Hy. lra.
Qed.
Lemma lim_pos (P : R -> Prop) : (forall x, 0 < x -> P x) -> Rbar_locally p_infty P.
Proof. intros H. exists 0. exact H. Qed.

(** ** Uniqueness *)
Lemma const_on_pos (H : R -> R) : (forall x, 0 < x -> is_derive H x 0) ->
  forall x y, 0 < x -> 0 < y -> H x = H y.
Proof.
  intros D. assert (L : forall x y, 0 < x -> x < y -> H x = H y).
  { intros x y Hx Hy. apply (eq_is_derive H x y); [|assumption]. intros t Ht. apply D. lra. }
  intros x y Hx Hy. destruct (Rtotal_order x y) as [A|[->|A]]; [apply L; assumption|reflexivity|].
  symmetry. apply L; assumption.
Qed.
Lemma antider_unique (F G f : R -> R) :
  (forall x, 0 < x -> is_derive F x (f x)) -> (forall x, 0 < x -> is_derive G x (f x)) ->
  filterlim F (at_right 0) (locally 0) -> filterlim G (at_right 0) (locally 0) ->
  forall x, 0 < x -> F x = G x.
Proof.
  intros DF DG LF LG x Hx. set (H := fun x => F x - G x).
  assert (DH : forall x, 0 < x -> is_derive H x 0).
  { intros t Ht. replace 0 with (f t - f t) by ring. apply (is_derive_minus F G); [apply DF|apply DG]; assumption. }
  assert (LH : filterlim H (at_right 0) (locally (0 - 0))).
  { apply (filterlim_comp_2 (F := at_right 0) F (fun x => - G x) Rplus LF (filterlim_comp _ _ _ _ _ _ _ _ LG (filterlim_opp 0))).
    apply (filterlim_plus 0 (- 0)). }
  assert (LC : filterlim H (at_right 0) (locally (H x))).
  { apply (filterlim_ext_loc (fun _ => H x)); [|apply filterlim_const].
    apply at_right_pos. intros y Hy. apply (const_on_pos H DH); assumption. }
  assert (E : H x = 0 - 0). { apply (filterlim_locally_unique (F := at_right 0) H); assumption. }
  unfold H in E. lra.
Qed.
Lemma integral_pos_unique f v w : integral_pos f v -> integral_pos f w -> v = w.
Proof.
  intros [F [DF [F0 F1]]] [G [DG [G0 G1]]].
  assert (E : Finite v = Finite w); [|congruence].
  apply (is_lim_unique F p_infty v) in F1. apply (is_lim_unique G p_infty w) in G1.
  rewrite <- F1, <- G1. apply Lim_ext_loc. apply lim_pos. intros x Hx. symmetry; apply (antider_unique F G f); assumption.
Qed.
Lemma integral_pos_gt0 f v : (forall x, 0 < x -> 0 < f x) -> integral_pos f v -> 0 < v.
Proof.
  intros Hf [F [DF [F0 F1]]].
  assert (M : forall x y, 0 < x -> x < y -> F x < F y).
  { intros x y Hx Hy. apply (incr_function_le F x y f); try lra; try (cbn; lra).
    - intros t H1 H2. apply DF. cbn in *. lra.
    - intros t H1 H2. apply Hf. cbn in *. lra. }
  assert (P : 0 <= F 1).
  { assert (Q : Rbar_le 0 (F 1)); [|exact Q].
    apply (filterlim_le (F := at_right 0) F (fun _ => F 1) 0 (F 1)); [|exact F0|apply filterlim_const].
    exists posreal_one. intros y Hy Hl. unfold ball in Hy; cbn in Hy.
    unfold AbsRing_ball, abs, minus, plus, opp in Hy; cbn in Hy. apply Rabs_def2 in Hy.
    left. apply M; [exact Hl|lra]. }
  assert (Q : Rbar_le (F 2) v).
  { apply (filterlim_le (F := Rbar_locally p_infty) (fun _ => F 2) F (F 2) v); [|apply filterlim_const|exact F1].
    exists 2. intros x Hx. left. apply M; lra. }
  cbn in Q. assert (F 1 < F 2) by (apply M; lra). lra.
Qed.
Lemma integral_pos_scale f v b : 0 < b -> integral_pos f v -> integral_pos (fun x => b * f (b * x)) v.
Proof.
  intros Hb [F [DF [F0 F1]]]. exists (fun x => F (b * x)). split; [|split].
  - intros x Hx. apply (is_derive_comp F (fun x => b * x) x).
    + apply DF. apply Rmult_lt_0_compat; assumption.
    + der. ring.
  - apply (filterlim_comp _ _ _ (fun x => b * x) F (at_right 0) (at_right 0)); [|exact F0].
    intros P [e He]. assert (Pe : 0 < e / b) by (apply Rdiv_lt_0_compat; [apply cond_pos|assumption]).
    exists (mkposreal _ Pe). intros y Hy Hl. apply He.
    + unfold ball in *; cbn in *. unfold AbsRing_ball, abs, minus, plus, opp in *; cbn in *.
      replace (b * y + - 0) with (b * (y + - 0)) by ring. rewrite Rabs_mult, (Rabs_right b) by lra.
      apply Rmult_lt_reg_r with (/ b); [apply Rinv_0_lt_compat; assumption|].
      replace (b * Rabs (y + - 0) * / b) with (Rabs (y + - 0)) by (field; lra). exact Hy.
    + apply Rmult_lt_0_compat; assumption.
  - apply (is_lim_comp F (fun x => b * x) p_infty v p_infty); [exact F1| |exists 0; intros; discriminate].
    replace p_infty with (Rbar_mult b p_infty) at 2.
    + apply is_lim_scal_l. apply is_lim_id.
    + unfold Rbar_mult, Rbar_mult'. destruct (Rle_dec 0 b) as [H|H]; [|lra]. destruct (Rle_lt_or_eq_dec 0 b H); [reflexivity|lra].
Qed.

(** ** Boundary terms y^s e^-y *)
Lemma Rpower_lim_0 s : 0 < s -> filterlim (fun t => Rpower t s) (at_right 0) (locally 0).
Proof.
  intros Hs. unfold Rpower.
  apply (filterlim_comp _ _ _ ln (fun y => exp (s * y)) (at_right 0) (Rbar_locally m_infty)); [apply is_lim_ln_0|].
  apply (is_lim_comp exp (fun y => s * y) m_infty 0 m_infty); [apply is_lim_exp_m| |exists 0; intros; discriminate].
  replace m_infty with (Rbar_mult s m_infty) at 2.
  - apply is_lim_scal_l. apply is_lim_id.
  - unfold Rbar_mult, Rbar_mult'. destruct (Rle_dec 0 s) as [H|H]; [|lra]. destruct (Rle_lt_or_eq_dec 0 s H); [reflexivity|lra].
Qed.
Lemma cont_right (f : R -> R) x l : continuous f x -> f x = l -> filterlim f (at_right x) (locally l).
Proof. intros C <-. apply (filterlim_filter_le_1 _ (filter_le_within (F := locally x) _) C). Qed.
Lemma cont_left (f : R -> R) x l : continuous f x -> f x = l -> filterlim f (at_left x) (locally l).
Proof. intros C <-. apply (filterlim_filter_le_1 _ (filter_le_within (F := locally x) _) C). Qed.
Lemma filterlim_Rmult {A} {F : (A -> Prop) -> Prop} {FF : Filter F} (f g : A -> R) a b c :
  filterlim f F (locally a) -> filterlim g F (locally b) -> a * b = c -> filterlim (fun x => f x * g x) F (locally c).
Proof. intros Hf Hg <-. apply (filterlim_comp_2 _ _ _ Hf Hg). apply (filterlim_mult a b). Qed.
Lemma filterlim_Rplus {A} {F : (A -> Prop) -> Prop} {FF : Filter F} (f g : A -> R) a b c :
  filterlim f F (locally a) -> filterlim g F (locally b) -> a + b = c -> filterlim (fun x => f x + g x) F (locally c).
Proof. intros Hf Hg <-. apply (filterlim_comp_2 _ _ _ Hf Hg). apply (filterlim_plus a b). Qed.
Lemma gterm_lim_0 s : 0 < s -> filterlim (fun t => Rpower t s * exp (- t)) (at_right 0) (locally 0).
Proof.
  intros Hs. apply (filterlim_Rmult (fun t => Rpower t s) (fun t => exp (- t)) 0 1 0); [apply Rpower_lim_0; assumption| |ring].
  apply cont_right; [|rewrite Ropp_0; apply exp_0].
  apply (ex_derive_continuous (fun t => exp (- t))). auto_derive. exact I.
Qed.
Lemma gterm_lim_inf s : is_lim (fun t => Rpower t s * exp (- t)) p_infty 0.
Proof.
  apply (is_lim_ext_loc (fun t => exp (t * (s * (ln t / t) - 1)))).
  - apply lim_pos. intros t Ht. unfold Rpower. rewrite <- exp_plus. f_equal. field. lra.
  - apply (is_lim_comp exp (fun t => t * (s * (ln t / t) - 1)) p_infty 0 m_infty);
      [apply is_lim_exp_m| |exists 0; intros; discriminate].
    replace m_infty with (Rbar_mult p_infty (s * 0 - 1)%R).
    + apply (is_lim_mult (fun t => t) (fun t => s * (ln t / t) - 1) p_infty p_infty (s * 0 - 1)%R).
      * apply is_lim_id.
      * apply is_lim_minus'; [|apply is_lim_const].
        apply (is_lim_scal_l (fun t => ln t / t) s p_infty 0). apply is_lim_div_ln_p.
      * cbn. lra.
    + unfold Rbar_mult, Rbar_mult'. destruct (Rle_dec 0 (s * 0 - 1)); [exfalso; lra|reflexivity].
Qed.
Lemma gterm_derive s y : 0 < y ->
  is_derive (fun t => Rpower t s * exp (- t)) y (s * (Rpower y (s - 1) * exp (- y)) - Rpower y s * exp (- y)).
Proof.
  intros Hy. unfold Rpower. auto_derive; [assumption|].
  match goal with |- ?a = ?b => change (@eq R a b) end. cbn.
  replace (exp ((s - 1) * ln y)) with (exp (s * ln y) / y); [field; lra|].
  replace ((s - 1) * ln y) with (s * ln y + - ln y) by ring.
  rewrite exp_plus, (exp_Ropp (ln y)), (exp_ln y) by assumption. reflexivity.
Qed.

(** ** Gamma function *)
Lemma gint_pos z t : 0 < Rpower t (z - 1) * exp (- t).
Proof. apply Rmult_lt_0_compat; apply exp_pos. Qed.
Lemma euler_gamma_pos z g : euler_gamma z g -> 0 < g.
Proof. apply integral_pos_gt0. intros. apply gint_pos. Qed.
Lemma euler_gamma_unique z g h : euler_gamma z g -> euler_gamma z h -> g = h.
Proof. apply integral_pos_unique. Qed.
Lemma is_lim_sub_scal (F h : R -> R) (c v : R) : is_lim F p_infty v -> is_lim h p_infty 0 ->
  is_lim (fun y => F y - h y * c) p_infty v.
Proof.
  intros H1 H2. replace (Finite v) with (Finite (v - 0 * c)) by (f_equal; ring).
  apply is_lim_minus'; [assumption|]. apply (is_lim_scal_r h c p_infty 0). assumption.
Qed.
Lemma filterlim_sub_scal {A} {Q : (A -> Prop) -> Prop} {FF : Filter Q} (F h : A -> R) c :
  filterlim F Q (locally 0) -> filterlim h Q (locally 0) -> filterlim (fun y => F y - h y * c) Q (locally 0).
Proof.
  intros H1 H2. apply (filterlim_ext (fun y => F y + h y * - c)); [intros; ring|].
  apply (filterlim_Rplus F (fun y => h y * - c) 0 0 0); [assumption| |ring].
  apply (filterlim_Rmult h (fun _ => - c) 0 (- c) 0); [assumption|apply filterlim_const|ring].
Qed.
Lemma euler_gamma_S z g : 0 < z -> euler_gamma z g -> euler_gamma (z + 1) (z * g).
Proof.
  intros Hz [F [DF [F0 F1]]]. exists (fun y => z * F y - Rpower y z * exp (- y) * 1). split; [|split].
  - intros y Hy. replace (z + 1 - 1) with z by ring.
    replace (Rpower y z * exp (- y)) with
      (z * (Rpower y (z - 1) * exp (- y)) - (z * (Rpower y (z - 1) * exp (- y)) - Rpower y z * exp (- y)) * 1) by ring.
    apply (is_derive_minus (fun y => z * F y) (fun y => Rpower y z * exp (- y) * 1)).
    + apply (is_derive_scal F y z). apply DF. assumption.
    + apply (is_derive_ext (fun t => Rpower t z * exp (- t))); [intros; symmetry; apply Rmult_1_r|].
      rewrite Rmult_1_r. apply gterm_derive. assumption.
  - apply filterlim_sub_scal; [|apply gterm_lim_0; assumption].
    apply (filterlim_Rmult (fun _ => z) F z 0 0); [apply filterlim_const|assumption|ring].
  - apply is_lim_sub_scal; [|apply gterm_lim_inf].
    apply (is_lim_scal_l F z p_infty g). assumption.
Qed.

(** ** Regularised lower incomplete gamma function *)
Definition is_glr (s g : R) (F : R -> R) : Prop :=
  0 < g /\ (forall y, 0 < y -> is_derive F y (Rpower y (s - 1) * exp (- y) / g)) /\
  filterlim F (at_right 0) (locally 0) /\ is_lim F p_infty 1.
Lemma glr_gamma s g F : is_glr s g F -> euler_gamma s g.
Proof.
  intros [Hg [DF [F0 F1]]]. exists (fun y => g * F y). split; [|split].
  - intros y Hy. replace (Rpower y (s - 1) * exp (- y)) with (g * (Rpower y (s - 1) * exp (- y) / g)) by (field; lra).
    apply (is_derive_scal F y g). apply DF. assumption.
  - apply (filterlim_Rmult (fun _ => g) F g 0 0); [apply filterlim_const|assumption|ring].
  - replace (Finite g) with (Finite (g * 1)) by (f_equal; ring). apply (is_lim_scal_l F g p_infty 1). assumption.
Qed.
Lemma gamma_glr s g : euler_gamma s g -> exists F, is_glr s g F.
Proof.
  intros E. pose proof (euler_gamma_pos s g E) as Hg. destruct E as [F [DF [F0 F1]]].
  exists (fun y => F y / g). split; [assumption|split; [|split]].
  - intros y Hy. unfold Rdiv. apply (is_derive_ext (fun y => / g * F y)); [intros; apply Rmult_comm|].
    rewrite (Rmult_comm _ (/ g)). apply (is_derive_scal F y (/ g)). apply DF. assumption.
  - apply (filterlim_Rmult F (fun _ => / g) 0 (/ g) 0); [assumption|apply filterlim_const|ring].
  - replace (Finite 1) with (Finite (g * / g)) by (f_equal; field; lra). apply (is_lim_scal_r F (/ g) p_infty g). assumption.
Qed.
Lemma glr_is s g F : is_glr s g F -> is_gamma_lr s F.
Proof. intros H. exists g. exact H. Qed.
Lemma is_gamma_lr_unique s F G : is_gamma_lr s F -> is_gamma_lr s G -> forall y, 0 < y -> F y = G y.
Proof.
  intros [g HF] [h HG].
  pose proof (euler_gamma_unique s g h (glr_gamma s g F HF) (glr_gamma s h G HG)) as <-.
  destruct HF as [_ [DF [F0 _]]]. destruct HG as [_ [DG [G0 _]]]. apply (antider_unique F G _ DF DG F0 G0).
Qed.
Lemma glr_S s g F : 0 < s -> is_glr s g F ->
  is_glr (s + 1) (s * g) (fun y => F y - Rpower y s * exp (- y) * / (s * g)).
Proof.
  intros Hs [Hg [DF [F0 F1]]]. assert (P : 0 < s * g) by (apply Rmult_lt_0_compat; assumption).
  split; [assumption|split; [|split]].
  - intros y Hy. replace (s + 1 - 1) with s by ring.
    replace (Rpower y s * exp (- y) / (s * g)) with
      (Rpower y (s - 1) * exp (- y) / g - / (s * g) * (s * (Rpower y (s - 1) * exp (- y)) - Rpower y s * exp (- y))) by (field; split; lra).
    apply (is_derive_minus F (fun y => Rpower y s * exp (- y) * / (s * g))); [apply DF; assumption|].
    apply (is_derive_ext (fun t => / (s * g) * (Rpower t s * exp (- t)))); [intros; apply Rmult_comm|].
    apply (is_derive_scal (fun t => Rpower t s * exp (- t)) y (/ (s * g))). apply gterm_derive. assumption.
  - apply filterlim_sub_scal; [assumption|apply gterm_lim_0; assumption].
  - apply is_lim_sub_scal; [assumption|apply gterm_lim_inf].
Qed.
Lemma glr_1 : is_glr 1 1 (fun y => 1 - exp (- y)).
Proof.
  split; [lra|split; [|split]].
  - intros y Hy. replace (1 - 1) with 0 by ring. rewrite Rpower_O by assumption. der. field.
  - apply cont_right; [|rewrite Ropp_0, exp_0; ring].
    apply (ex_derive_continuous (fun y => 1 - exp (- y))). auto_derive. exact I.
  - replace (Finite 1) with (Finite (1 - 0)) by (f_equal; ring). apply is_lim_minus'; [apply is_lim_const|].
    apply (is_lim_ext (fun x => exp (- (1) * x))); [intros; f_equal; ring|]. apply (is_lim_exp_neg 1). lra.
Qed.
Lemma glr_half : is_glr (1 / 2) (sqrt PI) (fun y => erf_true (sqrt y)).
Proof.
  pose proof sqrt_PI_pos as SP. split; [assumption|split; [|split]].
  - intros y Hy. replace (Rpower y (1 / 2 - 1) * exp (- y) / sqrt PI) with
      (/ (2 * sqrt y) * (2 / sqrt PI * exp (- (sqrt y * sqrt y)))).
    + apply (is_derive_comp erf_true sqrt y); [apply erf_true_derive|].
      apply is_derive_Reals. apply derivable_pt_lim_sqrt. assumption.
    + rewrite sqrt_sqrt by lra. replace (1 / 2 - 1) with (- (/ 2)) by lra.
      rewrite Rpower_Ropp, Rpower_sqrt by assumption. field. split; [|lra].
      apply Rgt_not_eq, sqrt_lt_R0. assumption.
  - apply cont_right; [|rewrite sqrt_0; apply erf_true_0].
    apply (continuous_comp sqrt erf_true 0); [apply continuous_sqrt|].
    apply (ex_derive_continuous erf_true). eexists. apply erf_true_derive.
  - apply (is_lim_comp erf_true sqrt p_infty 1 p_infty); [apply erf_true_lim_p| |exists 0; intros; discriminate].
    apply (is_lim_sqrt_p (fun x => x)). apply is_lim_id.
Qed.
