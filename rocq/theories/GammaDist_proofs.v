(** Gamma, chi-square, beta, t and Poisson distributions over exact reals; the special functions they
    call are the exact ones by hypothesis. *)
From Coq Require Import Arith Lia List Bool ZArith Reals Lra.
From Coquelicot Require Import Coquelicot.
From Verif Require Import Outcome Scalar RealOps Elem_model Int_model Ode_model Special_model Stat_model.
From Verif Require Import Stat_spec Discrete_proofs OdeOrder_proofs Continuous_proofs Gauss_proofs Normal_proofs Sample_proofs GammaFun_proofs.
Local Open Scope R_scope.

(** ** Integrals over the half-line *)
Lemma integral_pos_zero : integral_pos (fun _ => 0) 0.
Proof.
  exists (fun _ => 0). split; [|split].
  - intros. apply (@is_derive_const _ R_NormedModule).
  - apply filterlim_const.
  - apply is_lim_const.
Qed.
Lemma integral_pos_scal c f v : integral_pos f v -> integral_pos (fun x => c * f x) (c * v).
Proof.
  intros H. apply (integral_pos_ext (fun x => 0 + c * f x) _ (0 + c * v) _); [intros; ring|ring|].
  apply integral_pos_lin; [apply integral_pos_zero|assumption].
Qed.

(** ** Gamma density *)
Definition gpdf (a b g x : R) : R := b / g * (Rpower (b * x) (a - 1) * exp (- (b * x))).
Lemma Rpower_pred x a : 0 < x -> Rpower x a = x * Rpower x (a - 1).
Proof.
  intros Hx. replace a with (1 + (a - 1)) at 1 by ring. rewrite Rpower_plus, Rpower_1 by assumption. reflexivity.
Qed.
Lemma gpdf_total a b g : 0 < b -> euler_gamma a g -> integral_pos (gpdf a b g) 1.
Proof.
  intros Hb E. destruct (gamma_glr a g E) as [F [Hg [DF [F0 F1]]]].
  apply (integral_pos_ext (fun x => b * (fun y => Rpower y (a - 1) * exp (- y) / g) (b * x)) _ 1 1).
  - intros x Hx. unfold gpdf. cbv beta. field. lra.
  - reflexivity.
  - apply (integral_pos_scale (fun y => Rpower y (a - 1) * exp (- y) / g) 1 b); [assumption|]. exists F. auto.
Qed.
Lemma gpdf_shift a b g x : 0 < a -> 0 < b -> 0 < g -> 0 < x -> x * gpdf a b g x = a / b * gpdf (a + 1) b (a * g) x.
Proof.
  intros Ha Hb Hg Hx. unfold gpdf. replace (a + 1 - 1) with a by ring.
  rewrite (Rpower_pred (b * x) a) by (apply Rmult_lt_0_compat; assumption). field. repeat split; lra.
Qed.
Lemma gpdf_pos a b g x : 0 < b -> 0 < g -> 0 < gpdf a b g x.
Proof.
  intros Hb Hg. unfold gpdf. apply Rmult_lt_0_compat; [apply Rdiv_lt_0_compat; assumption|].
  apply Rmult_lt_0_compat; apply exp_pos.
Qed.
Section Moments.
Variables a b g : R.
Hypothesis Ha : 0 < a.
Hypothesis Hb : 0 < b.
Hypothesis Hg : euler_gamma a g.
Let Pg := euler_gamma_pos a g Hg.
Lemma gpdf_m1 : integral_pos (fun x => x * gpdf a b g x) (a / b).
Proof.
  apply (integral_pos_ext (fun x => a / b * gpdf (a + 1) b (a * g) x) _ (a / b * 1) _).
  - intros x Hx. symmetry. apply gpdf_shift; assumption.
  - ring.
  - apply integral_pos_scal. apply gpdf_total; [assumption|]. apply euler_gamma_S; assumption.
Qed.
Lemma gpdf_m2 : integral_pos (fun x => x * x * gpdf a b g x) (a * (a + 1) / (b * b)).
Proof.
  assert (E1 := euler_gamma_S a g Ha Hg). assert (P1 : 0 < a * g) by (apply Rmult_lt_0_compat; assumption).
  apply (integral_pos_ext (fun x => a / b * ((a + 1) / b * gpdf (a + 1 + 1) b ((a + 1) * (a * g)) x)) _ (a / b * ((a + 1) / b * 1)) _).
  - intros x Hx. rewrite Rmult_assoc, gpdf_shift, <- gpdf_shift by (assumption || lra). ring.
  - field. lra.
  - apply integral_pos_scal, integral_pos_scal, gpdf_total; [assumption|]. apply euler_gamma_S; [lra|assumption].
Qed.
Lemma gpdf_m3 : integral_pos (fun x => x * x * x * gpdf a b g x) (a * (a + 1) * (a + 2) / (b * b * b)).
Proof.
  assert (E1 := euler_gamma_S a g Ha Hg). assert (P1 : 0 < a * g) by (apply Rmult_lt_0_compat; assumption).
  assert (E2 := euler_gamma_S (a + 1) (a * g) ltac:(lra) E1). assert (P2 : 0 < (a + 1) * (a * g)) by (apply Rmult_lt_0_compat; lra).
  apply (integral_pos_ext (fun x => a / b * ((a + 1) / b * ((a + 1 + 1) / b * gpdf (a + 1 + 1 + 1) b ((a + 1 + 1) * ((a + 1) * (a * g))) x)))
    _ (a / b * ((a + 1) / b * ((a + 1 + 1) / b * 1))) _).
  - intros x Hx. rewrite !Rmult_assoc, gpdf_shift by (assumption || lra).
    rewrite <- (gpdf_shift (a + 1 + 1)) by (assumption || lra).
    replace (x * (x * (a / b * gpdf (a + 1) b (a * g) x))) with (a / b * (x * (x * gpdf (a + 1) b (a * g) x))) by ring.
    rewrite (gpdf_shift (a + 1)) by (assumption || lra). ring.
  - field. lra.
  - apply integral_pos_scal, integral_pos_scal, integral_pos_scal, gpdf_total; [assumption|]. apply euler_gamma_S; [lra|assumption].
Qed.
Lemma gpdf_var : integral_pos (fun x => (x - a / b) ^ 2 * gpdf a b g x) (a / (b * b)).
Proof.
  apply (integral_pos_ext (fun x => (x * x * gpdf a b g x + - 2 * (a / b) * (x * gpdf a b g x)) + a / b * (a / b) * gpdf a b g x)
     _ (a * (a + 1) / (b * b) + - 2 * (a / b) * (a / b) + a / b * (a / b) * 1) _).
  - intros. ring.
  - field. lra.
  - apply integral_pos_lin; [apply integral_pos_lin; [apply gpdf_m2|apply gpdf_m1]|apply gpdf_total; assumption].
Qed.
Lemma gpdf_skew : integral_pos (fun x => (x - a / b) ^ 3 * gpdf a b g x) (2 * a / (b * b * b)).
Proof.
  apply (integral_pos_ext (fun x => ((x * x * x * gpdf a b g x + - 3 * (a / b) * (x * x * gpdf a b g x))
       + 3 * (a / b * (a / b)) * (x * gpdf a b g x)) + - (a / b * (a / b) * (a / b)) * gpdf a b g x)
     _ (a * (a + 1) * (a + 2) / (b * b * b) + - 3 * (a / b) * (a * (a + 1) / (b * b)) + 3 * (a / b * (a / b)) * (a / b)
        + - (a / b * (a / b) * (a / b)) * 1) _).
  - intros. ring.
  - field. lra.
  - apply integral_pos_lin; [apply integral_pos_lin; [apply integral_pos_lin; [apply gpdf_m3|apply gpdf_m2]|apply gpdf_m1]|apply gpdf_total; assumption].
Qed.
End Moments.

Lemma gpdf_cdf a b g F x : 0 < b -> is_glr a g F -> 0 < x -> is_derive (fun x => F (b * x)) x (gpdf a b g x).
Proof.
  intros Hb [Hg [DF _]] Hx. unfold gpdf.
  replace (b / g * (Rpower (b * x) (a - 1) * exp (- (b * x)))) with (b * (Rpower (b * x) (a - 1) * exp (- (b * x)) / g)) by (field; lra).
  apply (is_derive_comp F (fun x => b * x) x).
  - apply DF. apply Rmult_lt_0_compat; assumption.
  - der. ring.
Qed.
Lemma glr_scale_lims a b g F : 0 < b -> is_glr a g F ->
  filterlim (fun x => F (b * x)) (at_right 0) (locally 0) /\ is_lim (fun x => F (b * x)) p_infty 1.
Proof.
  intros Hb [Hg [DF [F0 F1]]].
  assert (I : integral_pos (fun y => Rpower y (a - 1) * exp (- y) / g) 1) by (exists F; auto).
  split.
  - apply (filterlim_comp _ _ _ (fun x => b * x) F (at_right 0) (at_right 0)); [|exact F0].
    intros P [e He]. assert (Pe : 0 < e / b) by (apply Rdiv_lt_0_compat; [apply cond_pos|assumption]).
    exists (mkposreal _ Pe). intros y Hy Hl. apply He; [|apply Rmult_lt_0_compat; assumption].
    unfold ball in *; cbn in *. unfold AbsRing_ball, abs, minus, plus, opp in *; cbn in *.
    replace (b * y + - 0) with (b * (y + - 0)) by ring. rewrite Rabs_mult, (Rabs_right b) by lra.
    apply Rmult_lt_reg_r with (/ b); [apply Rinv_0_lt_compat; assumption|].
    replace (b * Rabs (y + - 0) * / b) with (Rabs (y + - 0)) by (field; lra). exact Hy.
  - apply (is_lim_comp F (fun x => b * x) p_infty 1 p_infty); [exact F1| |exists 0; intros; discriminate].
    replace p_infty with (Rbar_mult b p_infty) at 2.
    + apply is_lim_scal_l. apply is_lim_id.
    + unfold Rbar_mult, Rbar_mult'. destruct (Rle_dec 0 b) as [H|H]; [|exfalso; lra].
      destruct (Rle_lt_or_eq_dec 0 b H); [reflexivity|exfalso; lra].
Qed.
Lemma incr_pos (F p : R -> R) : (forall x, 0 < x -> is_derive F x (p x)) -> (forall x, 0 < x -> 0 < p x) ->
  forall x y, 0 < x -> x < y -> F x < F y.
Proof.
  intros D P x y Hx Hy. apply (incr_function_le F x y p); try lra; try (cbn; lra).
  - intros t H1 H2. apply D. cbn in *. lra.
  - intros t H1 H2. apply P. cbn in *. lra.
Qed.

(** ** The incomplete gamma functions of integer and half-integer order *)
Fixpoint ghalf (m : nat) : R := match m with O => sqrt PI | S k => (INR k + 1 / 2) * ghalf k end.
Definition chiE (m : nat) (y : R) : R := 1 - exp (- y) * sumn (S m) (fun i => y ^ i / INR (fact i)).
Definition chiO (m : nat) (y : R) : R :=
  erf_true (sqrt y) - exp (- y) * sumn m (fun i => Rpower y (INR i + 1 / 2) / ghalf (S i)).
Lemma ghalf_pos m : 0 < ghalf m.
Proof.
  induction m as [|m IH]; cbn [ghalf]; [apply sqrt_PI_pos|]. apply Rmult_lt_0_compat; [|assumption].
  pose proof (pos_INR m). lra.
Qed.
Lemma glr_ext s t g h F G : s = t -> g = h -> (forall y, 0 < y -> F y = G y) -> is_glr s g F -> is_glr t h G.
Proof.
  intros <- <- E [Hg [DF [F0 F1]]]. split; [assumption|split; [|split]].
  - intros y Hy. apply (is_derive_loc F G y _ (y / 2) (y + 1)); [lra| |apply DF; assumption].
    intros z Hz. apply E. lra.
  - apply (filterlim_ext_loc F); [|assumption]. apply at_right_pos. exact E.
  - apply (is_lim_ext_loc F); [|assumption]. apply lim_pos. exact E.
Qed.
Lemma chiE_glr m : is_glr (INR (S m)) (INR (fact m)) (chiE m).
Proof.
  induction m as [|m IH].
  - apply (glr_ext 1 _ 1 _ (fun y => 1 - exp (- y)) _); try reflexivity; [|apply glr_1].
    intros y Hy. unfold chiE. cbn. field.
  - apply (glr_ext (INR (S m) + 1) _ (INR (S m) * INR (fact m)) _
      (fun y => chiE m y - Rpower y (INR (S m)) * exp (- y) * / (INR (S m) * INR (fact m))) _).
    + rewrite (S_INR (S m)). reflexivity.
    + rewrite <- mult_INR. f_equal.
    + intros y Hy. unfold chiE. rewrite Rpower_pow by assumption. rewrite <- mult_INR.
      change (S m * fact m)%nat with (fact (S m)). change (sumn (S (S m)) (fun i => y ^ i / INR (fact i))) with
        (sumn (S m) (fun i => y ^ i / INR (fact i)) + y ^ S m / INR (fact (S m))).
      unfold Rdiv. ring.
    + apply glr_S; [|exact IH]. apply lt_0_INR. lia.
Qed.
Lemma chiO_glr m : is_glr (INR m + 1 / 2) (ghalf m) (chiO m).
Proof.
  induction m as [|m IH].
  - apply (glr_ext (1 / 2) _ (sqrt PI) _ (fun y => erf_true (sqrt y)) _); [cbn; lra|reflexivity| |apply glr_half].
    intros y Hy. unfold chiO. cbn. ring.
  - apply (glr_ext (INR m + 1 / 2 + 1) _ ((INR m + 1 / 2) * ghalf m) _
      (fun y => chiO m y - Rpower y (INR m + 1 / 2) * exp (- y) * / ((INR m + 1 / 2) * ghalf m)) _).
    + rewrite S_INR. ring.
    + reflexivity.
    + intros y Hy. unfold chiO. change (sumn (S m) (fun i => Rpower y (INR i + 1 / 2) / ghalf (S i))) with
        (sumn m (fun i => Rpower y (INR i + 1 / 2) / ghalf (S i)) + Rpower y (INR m + 1 / 2) / ghalf (S m)).
      cbn [ghalf]. unfold Rdiv. ring.
    + apply glr_S; [|exact IH]. pose proof (pos_INR m). lra.
Qed.
Lemma chiE_derive m y : is_derive (chiE m) y (exp (- y) * y ^ m / INR (fact m)).
Proof.
  induction m as [|m IH].
  - unfold chiE. cbn. der. field.
  - apply (is_derive_ext (fun y => chiE m y - exp (- y) * y ^ S m / INR (fact (S m)))).
    + intros z. unfold chiE. change (sumn (S (S m)) (fun i => z ^ i / INR (fact i))) with
        (sumn (S m) (fun i => z ^ i / INR (fact i)) + z ^ S m / INR (fact (S m))). 
      match goal with |- ?a = ?b => change (@eq R a b) end. unfold Rdiv. ring.
    + replace (exp (- y) * y ^ S m / INR (fact (S m))) with
        (exp (- y) * y ^ m / INR (fact m) - (- exp (- y) * y ^ S m + exp (- y) * (INR (S m) * y ^ m)) / INR (fact (S m))).
      * apply (is_derive_minus (chiE m) (fun y => exp (- y) * y ^ S m / INR (fact (S m)))); [exact IH|].
        generalize (INR (fact (S m))). intros c. clear IH.
        apply (is_derive_ext (fun y => exp (- y) * y ^ S m * / c)); [intros; reflexivity|].
        replace ((- exp (- y) * y ^ S m + exp (- y) * (INR (S m) * y ^ m)) / c) with
          (/ c * (- exp (- y) * y ^ S m + exp (- y) * (INR (S m) * y ^ m))) by (unfold Rdiv; ring).
        apply (is_derive_ext (fun y => / c * (exp (- y) * y ^ S m))); [intros; apply Rmult_comm|].
        apply (is_derive_scal (fun y => exp (- y) * y ^ S m) y (/ c)).
        apply (is_derive_mult (fun y => exp (- y)) (fun y => y ^ S m) y (- exp (- y)) (INR (S m) * y ^ m)); [der; ring| |intros; apply Rmult_comm].
        replace (INR (S m) * y ^ m) with (INR (S m) * 1 * y ^ Nat.pred (S m)) by (cbn [Nat.pred]; ring).
        apply (is_derive_pow (fun y => y) (S m) y 1). apply (@is_derive_id R_AbsRing).
      * rewrite fact_simpl, mult_INR. assert (INR (S m) <> 0) by (apply not_0_INR; lia).
        pose proof (INR_fact_neq_0 m). field. split; assumption.
Qed.
Lemma chiE_0 m : chiE m 0 = 0.
Proof.
  unfold chiE. rewrite Ropp_0, exp_0.
  assert (E : sumn (S m) (fun i => 0 ^ i / INR (fact i)) = 1).
  { induction m as [|m IH]; [cbn; field|]. change (sumn (S (S m)) (fun i => 0 ^ i / INR (fact i))) with
      (sumn (S m) (fun i => 0 ^ i / INR (fact i)) + 0 ^ S m / INR (fact (S m))). rewrite IH. rewrite pow_i by lia. unfold Rdiv. ring. }
  rewrite E. ring.
Qed.
Lemma chiE_neg m y : y < 0 -> if Nat.even m then chiE m y < 0 else 0 < chiE m y.
Proof.
  intros Hy. destruct (MVT_cor2 (chiE m) (fun c => exp (- c) * c ^ m / INR (fact m)) y 0 Hy) as [c [E [C1 C2]]].
  { intros c _. apply is_derive_Reals. apply chiE_derive. }
  rewrite chiE_0 in E. assert (F : 0 < INR (fact m)) by (apply INR_fact_lt_0). pose proof (exp_pos (- c)) as X.
  destruct (Nat.even m) eqn:Ev.
  - apply Nat.even_spec in Ev. destruct Ev as [q ->].
    assert (P : 0 < c ^ (2 * q)). { rewrite pow_mult. apply pow_lt. cbn. rewrite Rmult_1_r. apply Rlt_0_sqr. lra. }
    assert (0 < exp (- c) * c ^ (2 * q) / INR (fact (2 * q)) * (0 - y)); [|lra].
    apply Rmult_lt_0_compat; [|lra]. apply Rdiv_lt_0_compat; [apply Rmult_lt_0_compat|]; assumption.
  - assert (Od : Nat.odd m = true) by (rewrite <- Nat.negb_even, Ev; reflexivity).
    apply Nat.odd_spec in Od. destruct Od as [q ->].
    assert (P : 0 < - c ^ (2 * q + 1)).
    { rewrite pow_add, pow_mult, pow_1. rewrite Ropp_mult_distr_r. apply Rmult_lt_0_compat; [|lra].
      apply pow_lt. cbn. rewrite Rmult_1_r. apply Rlt_0_sqr. lra. }
    assert (0 < exp (- c) * - c ^ (2 * q + 1) / INR (fact (2 * q + 1)) * (0 - y)).
    { apply Rmult_lt_0_compat; [|lra]. apply Rdiv_lt_0_compat; [apply Rmult_lt_0_compat|]; assumption. }
    replace (exp (- c) * - c ^ (2 * q + 1) / INR (fact (2 * q + 1)) * (0 - y)) with
      (- (exp (- c) * c ^ (2 * q + 1) / INR (fact (2 * q + 1)) * (0 - y))) in H by (unfold Rdiv; ring). lra.
Qed.

(** ** Conversions *)
Lemma Int_part_uniq z x : IZR z <= x < IZR z + 1 -> Int_part x = z.
Proof.
  intros H. pose proof (Int_part_bounds x) as B.
  assert (Int_part x < z + 1)%Z by (apply lt_IZR; rewrite plus_IZR; lra).
  assert (z < Int_part x + 1)%Z by (apply lt_IZR; rewrite plus_IZR; lra). lia.
Qed.
Lemma as_u32_trunc (x : R) n : (Z.of_nat n <= 2 ^ 32 - 1)%Z -> INR n <= x < INR n + 1 -> as_u32 x = Z.of_nat n.
Proof.
  intros Hn Hx. rops. unfold R_trunc. pose proof (pos_INR n). destruct (Rlt_dec x 0); [lra|].
  rewrite (Int_part_uniq (Z.of_nat n)) by (rewrite <- INR_IZR_INZ; lra).
  unfold clamp. change (imin u32) with 0%Z. change (imax u32) with (2 ^ 32 - 1)%Z. lia.
Qed.
Lemma loop_sum (h : nat -> R) (body : nat -> R -> outcome R) n :
  (forall i s, (i < n)%nat -> body i s = Ret (s + h i)) -> for_loop 0 n body 0 = Ret (sumn n h).
Proof.
  intros H. destruct (for_loop_ind (fun i s => s = sumn i h) body 0 n 0) as (s' & E & ->).
  - lia.
  - reflexivity.
  - intros i s Hi ->. exists (sumn i h + h i). split; [apply H; lia|reflexivity].
  - exact E.
Qed.
Lemma lit_32 : lit 3 2 = 3 / 2. Proof. rewrite lit_R. reflexivity. Qed.

Section Dist.
Context {Sp : Special R}.

(** ** Gamma distribution *)
Lemma gammad_new_iff a b : gammad_new a b = Ret (mkGammaD a b) <-> 0 < a /\ 0 < b.
Proof. unfold gammad_new. rb. rops. repeat rcase; split; try discriminate; try lra; auto. Qed.
Lemma gammad_new_panic a b : gammad_new a b = Panic <-> a <= 0 \/ b <= 0.
Proof. unfold gammad_new. rb. rops. repeat rcase; split; try discriminate; try lra; auto. Qed.
Lemma gammad_pdf_panic d x : x <= 0 -> gammad_pdf d x = Panic.
Proof. intros H. unfold gammad_pdf. rb. rops. rcase; [reflexivity|lra]. Qed.
Lemma gammad_pdf_eq a b g x : 0 < b -> 0 < g -> 0 < x -> x_gamma a = Ret g ->
  gammad_pdf (mkGammaD a b) x = Ret (gpdf a b g x).
Proof.
  intros Hb Hg Hx E. unfold gammad_pdf; cbn [gd_a gd_b]. rb. rops. rcase; [lra|]. rewrite E. cbn [bind]. f_equal.
  rewrite !R_pow_pos by assumption. unfold gpdf. rewrite <- Rpower_mult_distr by assumption.
  rewrite (Rpower_pred b a) by assumption. replace (- b * x) with (- (b * x)) by ring. field. lra.
Qed.
Lemma gammad_cdf_eq a b F x : 0 < b -> 0 < x -> (forall y, 0 < y -> x_gamma_lr a y = Ret (F y)) ->
  gammad_cdf (mkGammaD a b) x = Ret (F (b * x)).
Proof.
  intros Hb Hx E. unfold gammad_cdf; cbn [gd_a gd_b]. rb. rops. rcase; [lra|]. apply E. apply Rmult_lt_0_compat; assumption.
Qed.
Lemma gammad_cdf_0 d : gammad_cdf d 0 = Ret 0.
Proof. unfold gammad_cdf. rb. rops. rcase; [reflexivity|lra]. Qed.

(** ** Chi-square *)
Lemma chi_new_iff n : chi_new n = Ret (mkChi (INR n)) <-> (1 <= n)%nat.
Proof.
  unfold chi_new. rewrite of_u_R. rb. rops. rcase; split; try discriminate; intros H; auto.
  - apply le_INR in H. cbn in H. lra.
  - apply INR_le. cbn. lra.
Qed.
Lemma chi_new_0 : @chi_new R _ _ 0 = Panic.
Proof. unfold chi_new. rewrite of_u_R. rb. rops. cbn. rcase; [reflexivity|lra]. Qed.
Lemma chi_pdf_neg d x : x < 0 -> chi_pdf d x = Ret 0.
Proof. intros H. unfold chi_pdf. rb. rops. rcase; [reflexivity|lra]. Qed.
Lemma chi_pdf_eq k g x : 0 < g -> 0 < x -> x_gamma (k / 2) = Ret g ->
  chi_pdf (mkChi k) x = Ret (gpdf (k / 2) (1 / 2) g x).
Proof.
  intros Hg Hx E. unfold chi_pdf; cbn [cs_k]. rewrite !lit_2. rb. rops. rcase; [lra|].
  rewrite E. cbn [bind]. f_equal. rewrite !R_pow_pos by lra. unfold gpdf.
  rewrite <- Rpower_mult_distr by lra. rewrite (Rpower_pred 2 (k / 2)) by lra.
  replace (1 / 2) with (/ 2) at 2 by lra.
  replace (Rpower (/ 2) (k / 2 - 1)) with (/ Rpower 2 (k / 2 - 1)).
  - replace (- x / 2) with (- (1 / 2 * x)) by lra. field. split; [apply Rgt_not_eq, exp_pos|lra].
  - unfold Rpower. rewrite ln_Rinv by lra. rewrite <- exp_Ropp. f_equal. ring.
Qed.

(** The gamma function at the half-integers. *)
Hypothesis Hgam : forall n, (1 <= n)%nat -> exists g, x_gamma (INR n / 2) = Ret g /\ euler_gamma (INR n / 2) g.
Lemma gam_int m : x_gamma (INR (S m)) = Ret (INR (fact m)).
Proof.
  destruct (Hgam (2 * S m)) as [g [E G]]; [lia|]. replace (INR (2 * S m) / 2) with (INR (S m)) in * by (rewrite mult_INR; cbn; field).
  rewrite E. f_equal. apply (euler_gamma_unique (INR (S m))); [assumption|]. apply (glr_gamma _ _ _ (chiE_glr m)).
Qed.
Lemma gam_half m : x_gamma (INR m + 1 / 2) = Ret (ghalf m).
Proof.
  destruct (Hgam (2 * m + 1)) as [g [E G]]; [lia|].
  replace (INR (2 * m + 1) / 2) with (INR m + 1 / 2) in * by (rewrite plus_INR, mult_INR; cbn; field).
  rewrite E. f_equal. apply (euler_gamma_unique (INR m + 1 / 2)); [assumption|]. apply (glr_gamma _ _ _ (chiO_glr m)).
Qed.
Lemma chi_cdf_even m x : (Z.of_nat (2 * S m) <= 2 ^ 32 - 1)%Z ->
  chi_cdf (mkChi (INR (2 * S m))) x = Ret (chiE m (x / 2)).
Proof.
  intros Hm. unfold chi_cdf; cbn [cs_k]. rewrite !lit_2.
  rewrite (as_u32_trunc (INR (2 * S m)) (2 * S m)) by (assumption || lra).
  replace (div (INR (2 * S m)) 2) with (INR (S m)) by (rewrite mult_INR; cbn; field).
  rewrite (as_u32_trunc (INR (S m)) (S m)) by (lia || lra).
  replace (Z.of_nat (2 * S m) mod 2 =? 0)%Z with true.
  2:{ symmetry. apply Z.eqb_eq. rewrite Nat2Z.inj_mul, Z.mul_comm. apply Z.mod_mul. lia. }
  rewrite Nat2Z.id. rewrite (loop_sum (fun i => (x / 2) ^ i / INR (fact i))).
  - cbn [bind]. f_equal. unfold chiE. rops. do 2 f_equal. f_equal. lra.
  - intros i s Hi. rewrite !of_u_R, gam_int. cbn [bind]. rops. rewrite R_pow_nat. reflexivity.
Qed.
Hypothesis Herf : forall x, x_erf x = Ret (erf_true x).
Lemma odd_mod m : (Z.of_nat (2 * m + 1) mod 2 =? 0)%Z = false.
Proof.
  apply Z.eqb_neq. replace (Z.of_nat (2 * m + 1)) with (1 + Z.of_nat m * 2)%Z by lia. rewrite Z.mod_add by lia. discriminate.
Qed.
Lemma chi_cdf_odd m x : (Z.of_nat (2 * m + 1) <= 2 ^ 32 - 1)%Z -> 0 < x ->
  chi_cdf (mkChi (INR (2 * m + 1))) x = Ret (chiO m (x / 2)).
Proof.
  intros Hm Hx. unfold chi_cdf; cbn [cs_k]. rewrite !lit_2, ?lit_half, ?lit_32.
  rewrite (as_u32_trunc (INR (2 * m + 1)) (2 * m + 1)) by (assumption || lra).
  assert (E : div (INR (2 * m + 1)) 2 = INR m + 1 / 2) by (rewrite plus_INR, mult_INR; cbn; field).
  rewrite E. rewrite (as_u32_trunc (INR m + 1 / 2) m) by (lia || lra).
  rewrite odd_mod. rewrite Nat2Z.id. rewrite (loop_sum (fun i => Rpower (x / 2) (INR i + 1 / 2) / ghalf (S i))).
  - cbn [bind]. rops. rewrite Herf. cbn [bind]. f_equal. unfold chiO. do 3 f_equal. lra.
  - intros i s Hi. rewrite !of_u_R. rops. replace (INR i + 3 / 2) with (INR (S i) + 1 / 2) by (rewrite S_INR; lra).
    rewrite gam_half. cbn [bind]. rewrite R_pow_pos by lra. reflexivity.
Qed.
Lemma chi_cdf_zero n : (1 <= n)%nat -> (Z.of_nat n <= 2 ^ 32 - 1)%Z -> chi_cdf (mkChi (INR n)) 0 = Ret 0.
Proof.
  intros Hn Hn2. destruct (Nat.Even_or_Odd n) as [[q ->]|[q ->]].
  - destruct q as [|q]; [lia|]. rewrite chi_cdf_even by assumption. f_equal. replace (0 / 2) with 0 by field. apply chiE_0.
  - unfold chi_cdf; cbn [cs_k]. rewrite !lit_2, ?lit_half, ?lit_32.
    rewrite (as_u32_trunc (INR (2 * q + 1)) (2 * q + 1)) by (assumption || lra).
    assert (E : div (INR (2 * q + 1)) 2 = INR q + 1 / 2) by (rewrite plus_INR, mult_INR; cbn; field).
    rewrite E. rewrite (as_u32_trunc (INR q + 1 / 2) q) by (lia || lra).
    rewrite odd_mod. rewrite Nat2Z.id. rewrite (loop_sum (fun i => 0)).
    + cbn [bind]. rops. replace (0 / 2) with 0 by field. rewrite sqrt_0, Herf. cbn [bind]. f_equal.
      rewrite erf_true_0. assert (Z : forall k, sumn k (fun _ => 0) = 0) by (induction k as [|k IH]; [reflexivity|cbn [sumn]; rewrite IH; apply Rplus_0_r]).
      rewrite Z. ring.
    + intros i s Hi. rewrite !of_u_R. rops. replace (INR i + 3 / 2) with (INR (S i) + 1 / 2) by (rewrite S_INR; lra).
      rewrite gam_half. cbn [bind]. replace (0 / 2) with 0 by field. pose proof (pos_INR i).
      unfold R_pow. destruct (Req_EM_T (INR i + 1 / 2) 0); [lra|]. destruct (Req_EM_T 0 0); [|lra]. unfold Rdiv. rewrite Rmult_0_l. reflexivity.
Qed.
(** Density and distribution function of the chi-square law with n degrees of freedom. *)
Lemma chi_law n : (1 <= n)%nat -> (Z.of_nat n <= 2 ^ 32 - 1)%Z -> exists (F : R -> R) g,
  euler_gamma (INR n / 2) g /\ is_glr (INR n / 2) g F /\
  (forall x, 0 < x -> chi_cdf (mkChi (INR n)) x = Ret (F (1 / 2 * x))) /\
  (forall x, 0 < x -> chi_pdf (mkChi (INR n)) x = Ret (gpdf (INR n / 2) (1 / 2) g x)).
Proof.
  intros Hn Hn2. destruct (Nat.Even_or_Odd n) as [[q ->]|[q ->]].
  - destruct q as [|q]; [lia|]. exists (chiE q), (INR (fact q)).
    assert (E : INR (2 * S q) / 2 = INR (S q)) by (rewrite mult_INR; cbn; field). rewrite E.
    split; [apply (glr_gamma _ _ _ (chiE_glr q))|split; [apply chiE_glr|split]].
    + intros x Hx. rewrite chi_cdf_even by assumption. do 2 f_equal. lra.
    + intros x Hx. rewrite <- E. apply chi_pdf_eq; [apply INR_fact_lt_0|assumption|]. rewrite E. apply gam_int.
  - exists (chiO q), (ghalf q).
    assert (E : INR (2 * q + 1) / 2 = INR q + 1 / 2) by (rewrite plus_INR, mult_INR; cbn; field). rewrite E.
    split; [apply (glr_gamma _ _ _ (chiO_glr q))|split; [apply chiO_glr|split]].
    + intros x Hx. rewrite chi_cdf_odd by assumption. do 2 f_equal. lra.
    + intros x Hx. rewrite <- E. apply chi_pdf_eq; [apply ghalf_pos|assumption|]. rewrite E. apply gam_half.
Qed.
End Dist.

(** ** Poisson distribution function *)
Section PoissonCdf.
Context {Sp : Special R}.
Lemma poisson_cdf_ok g n F : 0 < g -> (Z.of_nat n < 2 ^ 32 - 1)%Z -> is_gamma_lr (INR (S n)) F ->
  x_gamma_ur (INR (S n)) g = Ret (1 - F g) -> poisson_cdf (mkPoisson g) n = Ret (sum_to n (poisson_law g)).
Proof.
  intros Hg Hn HF E. unfold poisson_cdf; cbn [po_g]. rewrite ichk_u32_small by lia. cbn [bind]. rops.
  replace (IZR (Z.of_nat n + 1)) with (INR (S n)) by (rewrite INR_IZR_INZ; f_equal; lia).
  rewrite E. f_equal. rewrite (is_gamma_lr_unique _ F (chiE n) HF (glr_is _ _ _ (chiE_glr n))) by assumption.
  unfold chiE. replace (1 - (1 - exp (- g) * sumn (S n) (fun i => g ^ i / INR (fact i)))) with
    (sumn (S n) (fun i => g ^ i / INR (fact i)) * exp (- g)) by ring.
  clear. induction n as [|n IH]; [cbn; unfold poisson_law; cbn; ring|].
  cbn [sum_to]. rewrite <- IH. change (sumn (S (S n)) (fun i => g ^ i / INR (fact i))) with
    (sumn (S n) (fun i => g ^ i / INR (fact i)) + g ^ S n / INR (fact (S n))). unfold poisson_law. ring.
Qed.
Lemma poisson_cdf_overflow (d : @poisson R) n : (2 ^ 32 - 1 <= Z.of_nat n)%Z -> poisson_cdf d n = Panic.
Proof.
  intros H. unfold poisson_cdf. unfold ichk.
  replace (Z.of_nat n + 1 <=? imax u32)%Z with false; [rewrite andb_false_r; reflexivity|].
  symmetry. apply Z.leb_gt. change (imax u32) with (2 ^ 32 - 1)%Z. lia.
Qed.
End PoissonCdf.

(** ** Beta distribution *)
Lemma integral_01_lin (f g : R -> R) a b c :
  integral_01 f a -> integral_01 g b -> integral_01 (fun x => f x + c * g x) (a + c * b).
Proof.
  intros [F [F1 [F2 F3]]] [G [G1 [G2 G3]]]. exists (fun x => F x + c * G x). split; [|split].
  - intros x Hx. apply (@is_derive_plus _ R_NormedModule); [apply F1; assumption|].
    apply (is_derive_scal G x c). apply G1. assumption.
  - apply (filterlim_Rplus F (fun x => c * G x) 0 0 0); [assumption| |ring].
    apply (filterlim_Rmult (fun _ => c) G c 0 0); [apply filterlim_const|assumption|ring].
  - apply (filterlim_Rplus F (fun x => c * G x) a (c * b)); [assumption| |ring].
    apply (filterlim_Rmult (fun _ => c) G c b); [apply filterlim_const|assumption|ring].
Qed.
Lemma integral_01_ext (f g : R -> R) a b : (forall x, 0 < x < 1 -> f x = g x) -> a = b -> integral_01 f a -> integral_01 g b.
Proof.
  intros E <- [F [F1 [F2 F3]]]. exists F. split; [|auto]. intros x Hx. rewrite <- E by assumption. apply F1. assumption.
Qed.
Lemma integral_01_zero : integral_01 (fun _ => 0) 0.
Proof.
  exists (fun _ => 0). split; [|split].
  - intros. apply (@is_derive_const _ R_NormedModule).
  - apply filterlim_const.
  - apply filterlim_const.
Qed.
Lemma integral_01_scal c f v : integral_01 f v -> integral_01 (fun x => c * f x) (c * v).
Proof.
  intros H. apply (integral_01_ext (fun x => 0 + c * f x) _ (0 + c * v) _); [intros; ring|ring|].
  apply integral_01_lin; [apply integral_01_zero|assumption].
Qed.
Lemma integral_01_gt0 f v : (forall x, 0 < x < 1 -> 0 < f x) -> integral_01 f v -> 0 < v.
Proof.
  intros Hf [F [DF [F0 F1]]].
  assert (M : forall x y, 0 < x -> x < y -> y < 1 -> F x < F y).
  { intros x y Hx Hy Hy1. apply (incr_function_le F x y f); try lra; try (cbn; lra).
    - intros t H1 H2. apply DF. cbn in *. lra.
    - intros t H1 H2. apply Hf. cbn in *. lra. }
  assert (P : 0 <= F (1 / 4)).
  { assert (Q : Rbar_le 0 (F (1 / 4))); [|exact Q].
    apply (filterlim_le (F := at_right 0) F (fun _ => F (1 / 4)) 0 (F (1 / 4))); [|exact F0|apply filterlim_const].
    assert (E4 : 0 < 1 / 4) by lra. exists (mkposreal _ E4). intros y Hy Hl. unfold ball in Hy; cbn in Hy.
    unfold AbsRing_ball, abs, minus, plus, opp in Hy; cbn in Hy. apply Rabs_def2 in Hy.
    left. apply M; [exact Hl|lra|lra]. }
  assert (Q : Rbar_le (F (1 / 2)) v).
  { apply (filterlim_le (F := at_left 1) (fun _ => F (1 / 2)) F (F (1 / 2)) v); [|apply filterlim_const|exact F1].
    assert (E4 : 0 < 1 / 2) by lra. exists (mkposreal _ E4). intros y Hy Hl. unfold ball in Hy; cbn in Hy.
    unfold AbsRing_ball, abs, minus, plus, opp in Hy; cbn in Hy. apply Rabs_def2 in Hy.
    left. apply M; [lra|lra|exact Hl]. }
  cbn in Q. assert (F (1 / 4) < F (1 / 2)) by (apply M; lra). lra.
Qed.
Lemma euler_beta_pos p q b : euler_beta p q b -> 0 < b.
Proof. apply integral_01_gt0. intros. apply Rmult_lt_0_compat; apply exp_pos. Qed.
Lemma Rpower_lim_1 q : 0 < q -> filterlim (fun x => Rpower (1 - x) q) (at_left 1) (locally 0).
Proof.
  intros Hq. apply (filterlim_comp _ _ _ (fun x => 1 - x) (fun y => Rpower y q) (at_left 1) (at_right 0)).
  - intros P [e He]. exists e. intros y Hy Hl. apply He; [|lra].
    unfold ball in *; cbn in *. unfold AbsRing_ball, abs, minus, plus, opp in *; cbn in *.
    rewrite <- Rabs_Ropp. replace (- (1 - y + - 0)) with (y + - 1) by ring. exact Hy.
  - apply Rpower_lim_0. assumption.
Qed.
Lemma Rpower_cont s x : 0 < x -> continuous (fun t => Rpower t s) x.
Proof. intros Hx. unfold Rpower. apply (ex_derive_continuous (fun t => exp (s * ln t))). auto_derive. assumption. Qed.
Lemma bterm_lim_0 p q : 0 < p -> filterlim (fun x => Rpower x p * Rpower (1 - x) q) (at_right 0) (locally 0).
Proof.
  intros Hp. apply (filterlim_Rmult _ _ 0 1 0); [apply Rpower_lim_0; assumption| |ring].
  apply (cont_right (fun x => Rpower (1 - x) q)); [|replace (1 - 0) with 1 by ring; unfold Rpower; rewrite ln_1, Rmult_0_r; apply exp_0].
  unfold Rpower. apply (ex_derive_continuous (fun x => exp (q * ln (1 - x)))). auto_derive. lra.
Qed.
Lemma bterm_lim_1 p q : 0 < q -> filterlim (fun x => Rpower x p * Rpower (1 - x) q) (at_left 1) (locally 0).
Proof.
  intros Hq. apply (filterlim_Rmult _ _ 1 0 0); [|apply Rpower_lim_1; assumption|ring].
  apply (cont_left (fun x => Rpower x p)); [apply Rpower_cont; lra|unfold Rpower; rewrite ln_1, Rmult_0_r; apply exp_0].
Qed.
Lemma bterm_derive p q x : 0 < x < 1 ->
  is_derive (fun x => Rpower x p * Rpower (1 - x) q) x
    (p * (Rpower x (p - 1) * Rpower (1 - x) (q - 1)) - (p + q) * (Rpower x p * Rpower (1 - x) (q - 1))).
Proof.
  intros Hx. rewrite (Rpower_pred x p) by lra. unfold Rpower. auto_derive; [lra|].
  match goal with |- ?a = ?b => change (@eq R a b) end. cbn.
  assert (E1 : exp (p * ln x) = x * exp ((p - 1) * ln x)) by (apply (Rpower_pred x p); lra).
  assert (E2 : exp (q * ln (1 - x)) = (1 - x) * exp ((q - 1) * ln (1 - x))) by (apply (Rpower_pred (1 - x) q); lra).
  replace (1 + - x) with (1 - x) by ring. rewrite E1, E2. field. lra.
Qed.
Lemma euler_beta_S p q b : 0 < p -> 0 < q -> euler_beta p q b -> euler_beta (p + 1) q (p / (p + q) * b).
Proof.
  intros Hp Hq [F [DF [F0 F1]]]. exists (fun x => p / (p + q) * F x - Rpower x p * Rpower (1 - x) q * / (p + q)). split; [|split].
  - intros x Hx. replace (p + 1 - 1) with p by ring.
    replace (Rpower x p * Rpower (1 - x) (q - 1)) with
      (p / (p + q) * (Rpower x (p - 1) * Rpower (1 - x) (q - 1))
       - / (p + q) * (p * (Rpower x (p - 1) * Rpower (1 - x) (q - 1)) - (p + q) * (Rpower x p * Rpower (1 - x) (q - 1)))) by (field; lra).
    apply (is_derive_minus (fun x => p / (p + q) * F x) (fun x => Rpower x p * Rpower (1 - x) q * / (p + q))).
    + apply (is_derive_scal F x (p / (p + q))). apply DF. assumption.
    + apply (is_derive_ext (fun t => / (p + q) * (Rpower t p * Rpower (1 - t) q))); [intros; apply Rmult_comm|].
      apply (is_derive_scal (fun t => Rpower t p * Rpower (1 - t) q) x (/ (p + q))). apply bterm_derive. assumption.
  - apply filterlim_sub_scal; [|apply bterm_lim_0; assumption].
    apply (filterlim_Rmult (fun _ => p / (p + q)) F (p / (p + q)) 0 0); [apply filterlim_const|assumption|ring].
  - apply (filterlim_ext (fun x => p / (p + q) * F x + Rpower x p * Rpower (1 - x) q * - / (p + q))); [intros; ring|].
    apply (filterlim_Rplus (fun x => p / (p + q) * F x) (fun x => Rpower x p * Rpower (1 - x) q * - / (p + q)) (p / (p + q) * b) 0); [| |ring].
    + apply (filterlim_Rmult (fun _ => p / (p + q)) F (p / (p + q)) b); [apply filterlim_const|assumption|ring].
    + apply (filterlim_Rmult (fun x => Rpower x p * Rpower (1 - x) q) (fun _ => - / (p + q)) 0 (- / (p + q)) 0);
        [apply bterm_lim_1; assumption|apply filterlim_const|ring].
Qed.
Lemma euler_beta_11 : euler_beta 1 1 1.
Proof.
  exists (fun x => x). split; [|split].
  - intros x Hx. replace (1 - 1) with 0 by ring. rewrite !Rpower_O by lra. der. ring.
  - apply (cont_right (fun x => x)); [apply continuous_id|reflexivity].
  - apply (cont_left (fun x => x)); [apply continuous_id|reflexivity].
Qed.
Definition bpdf (p q b x : R) : R := Rpower x (p - 1) * Rpower (1 - x) (q - 1) / b.
Section BetaMoments.
Variables p q b : R.
Hypothesis Hp : 0 < p.
Hypothesis Hq : 0 < q.
Hypothesis Hb : euler_beta p q b.
Let Pb := euler_beta_pos p q b Hb.
Lemma bpdf_total : integral_01 (bpdf p q b) 1.
Proof.
  apply (integral_01_ext (fun x => / b * (Rpower x (p - 1) * Rpower (1 - x) (q - 1))) _ (/ b * b) _);
    [intros; unfold bpdf, Rdiv; apply Rmult_comm|field; lra|]. apply integral_01_scal. exact Hb.
Qed.
Lemma bpdf_m1 : integral_01 (fun x => x * bpdf p q b x) (p / (p + q)).
Proof.
  apply (integral_01_ext (fun x => / b * (Rpower x (p + 1 - 1) * Rpower (1 - x) (q - 1))) _ (/ b * (p / (p + q) * b)) _).
  - intros x Hx. unfold bpdf. replace (p + 1 - 1) with p by ring. rewrite (Rpower_pred x p) by lra. field. lra.
  - field. split; lra.
  - apply integral_01_scal. apply euler_beta_S; assumption.
Qed.
Lemma bpdf_m2 : integral_01 (fun x => x * x * bpdf p q b x) (p * (p + 1) / ((p + q) * (p + q + 1))).
Proof.
  apply (integral_01_ext (fun x => / b * (Rpower x (p + 1 + 1 - 1) * Rpower (1 - x) (q - 1))) _
     (/ b * ((p + 1) / (p + 1 + q) * (p / (p + q) * b))) _).
  - intros x Hx. unfold bpdf. replace (p + 1 + 1 - 1) with (p + 1) by ring. rewrite (Rpower_pred x (p + 1)) by lra.
    replace (p + 1 - 1) with p by ring. rewrite (Rpower_pred x p) by lra. field. lra.
  - field. repeat split; lra.
  - apply integral_01_scal. apply euler_beta_S; [lra|assumption|]. apply euler_beta_S; assumption.
Qed.
Lemma bpdf_var : integral_01 (fun x => (x - p / (p + q)) ^ 2 * bpdf p q b x) (p * q / ((p + q + 1) * ((p + q) * (p + q)))).
Proof.
  apply (integral_01_ext (fun x => (x * x * bpdf p q b x + - 2 * (p / (p + q)) * (x * bpdf p q b x)) + p / (p + q) * (p / (p + q)) * bpdf p q b x)
     _ (p * (p + 1) / ((p + q) * (p + q + 1)) + - 2 * (p / (p + q)) * (p / (p + q)) + p / (p + q) * (p / (p + q)) * 1) _).
  - intros. ring.
  - field. split; lra.
  - apply integral_01_lin; [apply integral_01_lin; [apply bpdf_m2|apply bpdf_m1]|apply bpdf_total].
Qed.
End BetaMoments.

Section BetaT.
Context {Sp : Special R}.
Lemma beta_new_iff p q : beta_new p q = Ret (mkBeta p q) <-> 0 <= p /\ 0 < q.
Proof. unfold beta_new. rb. rops. repeat rcase; split; try discriminate; try lra; auto. Qed.
Lemma beta_new_panic p q : beta_new p q = Panic <-> p < 0 \/ q <= 0.
Proof. unfold beta_new. rb. rops. repeat rcase; split; try discriminate; try lra; auto. Qed.
Lemma beta_pdf_eq p q b x : 0 < x < 1 -> x_beta p q = Ret b -> beta_pdf (mkBeta p q) x = Ret (bpdf p q b x).
Proof.
  intros Hx E. unfold beta_pdf; cbn [be_p be_q]. rb. rops. repeat rcase; try lra.
  rewrite E. cbn [bind]. rewrite !R_pow_pos by lra. reflexivity.
Qed.
Lemma beta_pdf_above d x : 1 < x -> beta_pdf d x = Ret 1.
Proof. intros H. unfold beta_pdf. rb. rops. repeat rcase; try lra. reflexivity. Qed.
Lemma beta_pdf_below d x : x < 0 -> beta_pdf d x = Panic.
Proof. intros H. unfold beta_pdf. rb. rops. repeat rcase; try lra. reflexivity. Qed.

(** ** Student's t *)
Lemma td_new_iff n : td_new n = Ret (mkT n) <-> 0 <= n.
Proof. unfold td_new. rb. rops. rcase; split; try discriminate; try lra; auto. Qed.
Lemma td_pdf_sym d x : td_pdf d (- x) = td_pdf d x.
Proof. unfold td_pdf. rops. replace (- x * - x) with (x * x) by ring. reflexivity. Qed.
Lemma td_cdf_sym d x c : td_cdf d x = Ret c -> td_cdf d (- x) = Ret (1 - c).
Proof.
  unfold td_cdf. rewrite !lit_2. rops. rewrite !R_pow_2. replace (- x * - x) with (x * x) by ring.
  destruct (x_f21 _ _ _ _) as [f|]; cbn [bind]; [|discriminate].
  destruct (x_gamma _) as [g1|]; cbn [bind]; [|discriminate].
  destruct (x_gamma _) as [g2|]; cbn [bind]; [|discriminate].
  intros E. injection E as <-. f_equal. rewrite lit_half. unfold Rdiv. lra.
Qed.
Lemma td_cdf_0 d c : td_cdf d 0 = Ret c -> c = 1 / 2.
Proof. intros E. pose proof (td_cdf_sym d 0 c E) as E'. rewrite Ropp_0, E in E'. injection E' as E'. lra. Qed.
Lemma td_cauchy x : x_gamma 1 = Ret 1 -> x_gamma (1 / 2) = Ret (sqrt PI) ->
  td_pdf (mkT 1) x = Ret (/ (PI * (1 + x * x))).
Proof.
  intros G1 G2. unfold td_pdf; cbn [td_n]. rewrite !lit_2. rops. replace ((1 + 1) / 2) with 1 by field.
  rewrite G1, G2. cbn [bind]. f_equal. assert (P : 0 < 1 + x * x) by (pose proof (Rle_0_sqr x); unfold Rsqr in *; lra).
  replace (1 + x * x / 1) with (1 + x * x) by field. rewrite R_pow_pos by assumption. rewrite Rpower_Ropp, Rpower_1 by assumption.
  pose proof sqrt_PI_pos. pose proof PI_RGT_0. rewrite Rmult_1_l.
  assert (SS : sqrt PI * sqrt PI = PI) by (apply sqrt_sqrt; lra).
  rewrite Rmult_1_l, SS. field. lra.
Qed.
End BetaT.
