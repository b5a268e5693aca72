(** Accuracy of Student's t distribution function computed through the hypergeometric function. *)
From Coq Require Import Arith Lia List Bool ZArith Reals Lra Psatz.
From Coquelicot Require Import Coquelicot.
From Verif Require Import Outcome Scalar RealOps Int_model Ode_model Special_model Stat_model.
From Verif Require Import Special_spec Stat_spec Discrete_proofs OdeOrder_proofs Continuous_proofs Normal_proofs Special_proofs GammaFun_proofs GammaDist_proofs StatExtra_proofs SpecialNew_proofs StatNew_proofs Stirling_proofs GammaAll_proofs TDist_proofs BetaAcc_proofs DistAcc_proofs TMoments_proofs LnGammaAcc_proofs.
Local Open Scope R_scope.

(** * The binomial series *)
Definition bcf (b : R) (j : nat) : R := rising b j / INR (fact j).
Lemma bcf_S b j : bcf b (S j) * (INR j + 1) = bcf b j * (b + INR j).
Proof.
  unfold bcf. cbn [rising]. change (fact (S j)) with (S j * fact j)%nat. rewrite mult_INR, S_INR. pose proof (INR_fact_neq_0 j). pose proof (pos_INR j). field. split; lra.
Qed.
Lemma bcf_abs b j : Rabs (bcf b j) <= Rabs (bcf (Rabs b + 1) j).
Proof.
  unfold bcf, Rdiv. rewrite !Rabs_mult. apply Rmult_le_compat_r; [apply Rabs_pos|].
  induction j; cbn [rising]; [lra|]. rewrite !Rabs_mult. apply Rmult_le_compat; [apply Rabs_pos|apply Rabs_pos|exact IHj|].
  pose proof (pos_INR j). pose proof (Rabs_pos b). rewrite (Rabs_pos_eq (Rabs b + 1 + INR j)) by lra. eapply Rle_trans; [apply Rabs_triang|]. rewrite (Rabs_pos_eq (INR j)) by lra. lra.
Qed.
Lemma lim_ratio a b : is_lim_seq (fun n => (a + INR n) / (INR n + b)) 1.
Proof.
  apply (is_lim_seq_ext_loc (fun n => 1 + (a - b) * / (INR n + b))).
  - destruct (nfloor_ex (Rabs b) (Rabs_pos b)) as [N [_ HN]]. exists (S N). intros n Hn. apply le_INR in Hn. rewrite S_INR in Hn. pose proof (Rle_abs (- b)) as Q. rewrite Rabs_Ropp in Q. field. lra.
  - replace (Finite 1) with (Finite (1 + (a - b) * 0)) by (f_equal; ring).
    apply (is_lim_seq_plus' (fun _ => 1) (fun n => (a - b) * / (INR n + b))); [apply is_lim_seq_const|].
    apply (is_lim_seq_scal_l (fun n => / (INR n + b)) (a - b) 0). replace (Finite 0) with (Rbar_inv p_infty) by reflexivity.
    apply is_lim_seq_inv; [|discriminate]. apply (is_lim_seq_plus INR (fun _ => b) p_infty b); [apply is_lim_seq_INR|apply is_lim_seq_const|reflexivity].
Qed.
Lemma CV_radius_le (a b : nat -> R) : (forall n, Rabs (a n) <= Rabs (b n)) -> Rbar_le (CV_radius b) (CV_radius a).
Proof.
  intros H. destruct (CV_radius_bounded b) as [_ L]. destruct (CV_radius_bounded a) as [U _]. apply L. intros r [M HM]. apply U. exists M. intro n.
  eapply Rle_trans; [|apply HM]. rewrite !Rabs_mult. apply Rmult_le_compat_r; [apply Rabs_pos|apply H].
Qed.
Lemma bcf_radius b : Rbar_le 1 (CV_radius (bcf b)).
Proof.
  set (c := Rabs b + 1). assert (C : 0 < c) by (unfold c; pose proof (Rabs_pos b); lra).
  assert (P : forall n, 0 < bcf c n) by (intro n; unfold bcf; apply Rdiv_lt_0_compat; [now apply rising_pos|apply INR_fact_lt_0]).
  assert (E : CV_radius (bcf c) = Finite (/ 1)).
  { apply CV_radius_finite_DAlembert; [intro n; apply Rgt_not_eq, P|lra|]. apply (is_lim_seq_ext (fun n => (c + INR n) / (INR n + 1))); [|apply lim_ratio].
    intro n. pose proof (P n). pose proof (P (S n)). pose proof (bcf_S c n) as S0. pose proof (pos_INR n). rewrite Rabs_pos_eq by (apply Rdiv_le_0_compat; lra).
    apply Rmult_eq_reg_r with (bcf c n * (INR n + 1)); [|apply Rmult_integral_contrapositive; lra]. transitivity (bcf c n * (c + INR n)); [field; lra|rewrite <- S0; field; lra]. }
  replace (Finite 1) with (Finite (/ 1)) by (f_equal; field). rewrite <- E. apply CV_radius_le. apply bcf_abs.
Qed.
Lemma in_radius (a : nat -> R) w : Rbar_le 1 (CV_radius a) -> Rabs w < 1 -> Rbar_lt (Rabs w) (CV_radius a).
Proof. intros H W. eapply Rbar_lt_le_trans; [|exact H]. exact W. Qed.
(** w f'(w) as a power series. *)
Lemma ps_wderive (a : nat -> R) w : Rbar_lt (Rabs w) (CV_radius a) -> w * PSeries (PS_derive a) w = PSeries (fun j => INR j * a j) w.
Proof.
  intros H. assert (E : forall n, (PS_incr_1 (PS_derive a)) n = INR n * a n).
  { intros [|n]; unfold PS_incr_1, PS_derive; [cbn; unfold zero; cbn; ring|reflexivity]. }
  rewrite <- (PSeries_ext _ _ w E), PSeries_incr_1. reflexivity.
Qed.
Lemma ps_wderive_ex (a : nat -> R) w : Rbar_lt (Rabs w) (CV_radius a) -> ex_pseries (fun j => INR j * a j) w.
Proof.
  intros H. apply (ex_pseries_ext (PS_incr_1 (PS_derive a))).
  { intros [|n]; unfold PS_incr_1, PS_derive; [cbn; unfold zero; cbn; ring|reflexivity]. }
  apply ex_pseries_incr_1. apply CV_radius_inside. now rewrite CV_radius_derive.
Qed.
Lemma binomial_series b w : Rabs w < 1 -> PSeries (bcf b) w = Rpower (1 - w) (- b).
Proof.
  intros Hw. pose proof (bcf_radius b) as HR.
  assert (D : forall t, Rabs t < 1 -> is_derive (PSeries (bcf b)) t (PSeries (PS_derive (bcf b)) t)) by (intros; apply is_derive_PSeries; now apply in_radius).
  assert (ODE : forall t, Rabs t < 1 -> (1 - t) * PSeries (PS_derive (bcf b)) t = b * PSeries (bcf b) t).
  { intros t Ht. pose proof (in_radius _ _ HR Ht) as Rt. rewrite Rmult_minus_distr_r, Rmult_1_l, ps_wderive by assumption.
    rewrite <- PSeries_scal. rewrite <- PSeries_minus; [|apply CV_radius_inside; now rewrite CV_radius_derive|now apply ps_wderive_ex].
    apply PSeries_ext. intro n. change (INR (S n) * bcf b (S n) + - (INR n * bcf b n) = b * bcf b n). rewrite S_INR.
    pose proof (bcf_S b n) as S0. replace ((INR n + 1) * bcf b (S n)) with (bcf b (S n) * (INR n + 1)) by ring. rewrite S0. ring. }
  set (h := fun t => PSeries (bcf b) t * Rpower (1 - t) b).
  assert (DH : forall t, Rabs t < 1 -> is_derive h t 0).
  { intros t Ht. assert (T1 : 0 < 1 - t) by (apply Rabs_def2 in Ht; lra).
    assert (DP : is_derive (fun t => Rpower (1 - t) b) t (- b / (1 - t) * Rpower (1 - t) b)).
    { unfold Rpower. auto_derive; [lra|]. match goal with |- ?p = ?q => change (@eq R p q) end. change (1 + - t) with (1 - t). set (e := exp (b * ln (1 - t))). clearbody e. field. lra. }
    pose proof (is_derive_mult (PSeries (bcf b)) (fun t => Rpower (1 - t) b) t _ _ (D t Ht) DP Rmult_comm) as M. unfold plus, mult in M; cbn in M.
    replace 0 with (PSeries (PS_derive (bcf b)) t * Rpower (1 - t) b + PSeries (bcf b) t * (- b / (1 - t) * Rpower (1 - t) b)); [exact M|].
    replace (PSeries (PS_derive (bcf b)) t) with (b * PSeries (bcf b) t / (1 - t)) by (rewrite <- ODE by assumption; field; lra). field. lra. }
  assert (H0 : h 0 = 1).
  { unfold h. rewrite PSeries_0. unfold bcf. cbn. rewrite Rminus_0_r. unfold Rpower. rewrite ln_1, Rmult_0_r, exp_0. field. }
  assert (HW : h w = 1).
  { rewrite <- H0. apply Rabs_def2 in Hw. destruct (Rtotal_order w 0) as [L|[->|L]]; [|reflexivity|symmetry].
    - apply (eq_is_derive h); [intros t Ht; apply DH, Rabs_def1; lra|exact L].
    - apply (eq_is_derive h); [intros t Ht; apply DH, Rabs_def1; lra|exact L]. }
  unfold h in HW. rewrite Rpower_Ropp. assert (0 < Rpower (1 - w) b) by apply exp_pos. field_simplify_eq; [exact HW|lra].
Qed.
(** * F(1/2, b; 3/2; w) *)
Lemma rising_half j : rising (1 / 2) j * (2 * INR j + 1) = rising (3 / 2) j.
Proof.
  induction j; [cbn; field|]. cbn [rising]. rewrite <- IHj, S_INR. field.
Qed.
Definition hcf (b : R) (j : nat) : R := bcf b j / (2 * INR j + 1).
Lemma hcf_term b w j : gauss_term (1 / 2) b (3 / 2) w j = hcf b j * w ^ j.
Proof.
  unfold gauss_term, hcf, bcf. rewrite <- rising_half. pose proof (rising_pos (1 / 2) j ltac:(lra)). pose proof (pos_INR j). pose proof (INR_fact_neq_0 j). field. repeat split; lra.
Qed.
Lemma hcf_radius b : Rbar_le 1 (CV_radius (hcf b)).
Proof.
  eapply Rbar_le_trans; [apply (bcf_radius b)|]. apply CV_radius_le. intro n. unfold hcf, Rdiv. rewrite Rabs_mult. pose proof (pos_INR n).
  rewrite <- (Rmult_1_r (Rabs (bcf b n))) at 2. apply Rmult_le_compat_l; [apply Rabs_pos|]. rewrite Rabs_pos_eq by (left; apply Rinv_0_lt_compat; lra).
  rewrite <- Rinv_1. apply Rinv_le_contravar; lra.
Qed.
Lemma hser_series b w : Rabs w < 1 -> is_series (gauss_term (1 / 2) b (3 / 2) w) (PSeries (hcf b) w).
Proof.
  intros Hw. pose proof (PSeries_correct (hcf b) w) as C. apply is_pseries_R in C; [|apply CV_radius_inside, in_radius; [apply hcf_radius|assumption]].
  eapply is_series_ext; [|exact C]. intro n. cbv beta. now rewrite hcf_term.
Qed.
Lemma hser_ode b w : Rabs w < 1 -> PSeries (hcf b) w + 2 * (w * PSeries (PS_derive (hcf b)) w) = Rpower (1 - w) (- b).
Proof.
  intros Hw. pose proof (in_radius _ _ (hcf_radius b) Hw) as Rt. rewrite ps_wderive by assumption. rewrite <- PSeries_scal.
  rewrite <- PSeries_plus; [|now apply CV_radius_inside|apply ex_pseries_scal; [apply Rmult_comm|now apply ps_wderive_ex]].
  rewrite <- binomial_series by assumption. apply PSeries_ext. intro n. change (hcf b n + 2 * (INR n * hcf b n) = bcf b n). unfold hcf. pose proof (pos_INR n). field. lra.
Qed.
(** * Stopping the series *)
Lemma f21_loop_more (a b c z : R) k v fuel : f21_norm k a b c z = Some v -> (k <= fuel)%nat -> f21_norm fuel a b c z = Some v.
Proof. unfold f21_norm. intros E H. replace fuel with (k + (fuel - k))%nat by lia. now apply f21_loop_fuel. Qed.
Lemma f21_reach a b c z N : 0 < c -> Rabs (gauss_term a b c z (S N)) <= f21_tol * Rabs (sum_f_R0 (gauss_term a b c z) N) ->
  forall m n, (n + m = S N)%nat -> exists v, f21_loop m a b c z (gauss_term a b c z n) (sum_f_R0 (gauss_term a b c z) n)
    (match n with O => 1 | S m => sum_f_R0 (gauss_term a b c z) m end) (INR n) = Some v.
Proof.
  intros Hc HN. assert (T0 : 0 < f21_tol) by (rewrite f21_tol_R; lra). induction m as [|m IH]; intros n En; cbn [f21_loop]; rb; rops.
  - replace n with (S N) by lia. rcase; [|eauto]. exfalso. destruct (Req_dec (sum_f_R0 (gauss_term a b c z) N) 0) as [Z|Z].
    + rewrite Z, Rabs_R0, Rmult_0_r in HN. pose proof (Rabs_pos (gauss_term a b c z (S N))). replace (Rabs (gauss_term a b c z (S N))) with 0 in * by lra. unfold Rdiv in *. rewrite Rmult_0_l in *. lra.
    + apply Rabs_pos_lt in Z. match goal with H : _ < _ / _ |- _ => apply Rlt_div_r in H; lra end.
  - rcase; [|eauto]. destruct (IH (S n) ltac:(lia)) as [v Hv]. exists v. rewrite gauss_term_S, S_INR in Hv by assumption. cbn [sum_f_R0] in Hv. rewrite gauss_term_S in Hv by assumption. exact Hv.
Qed.
Lemma series_sum (T : nat -> R) F : is_series T F -> is_lim_seq (sum_f_R0 T) F.
Proof. intros H. apply (is_lim_seq_ext (sum_n T)); [intro; apply sum_n_Reals|exact H]. Qed.
Lemma f21_terminates a b c z F : 0 < c -> is_series (gauss_term a b c z) F -> F <> 0 -> exists k v, forall fuel, (k <= fuel)%nat -> f21_norm fuel a b c z = Some v.
Proof.
  intros Hc HF F0. assert (T0 : 0 < f21_tol) by (rewrite f21_tol_R; lra). assert (AF : 0 < Rabs F) by now apply Rabs_pos_lt.
  pose proof (ex_series_lim_0 (gauss_term a b c z) (ex_intro _ F HF)) as L0. apply is_lim_seq_spec in L0. pose proof (series_sum _ _ HF) as L1. apply is_lim_seq_spec in L1.
  assert (E0 : 0 < f21_tol * (Rabs F / 2)) by (apply Rmult_lt_0_compat; lra). assert (E1 : 0 < Rabs F / 2) by lra.
  destruct (L0 (mkposreal _ E0)) as [N0 H0]. destruct (L1 (mkposreal _ E1)) as [N1 H1]. cbn [pos] in H0, H1. set (N := Nat.max N0 N1).
  assert (S0 : gauss_term a b c z 0 = 1) by (unfold gauss_term; cbn; field).
  destruct (f21_reach a b c z N Hc) with (m := S N) (n := 0%nat) as [v Hv]; [|reflexivity|].
  - specialize (H0 (S N) ltac:(lia)). specialize (H1 N ltac:(lia)). rewrite Rminus_0_r in H0. apply Rlt_le. eapply Rlt_le_trans; [exact H0|].
    apply Rmult_le_compat_l; [lra|]. pose proof (Rabs_triang_inv F (F - sum_f_R0 (gauss_term a b c z) N)) as Q. replace (F - (F - sum_f_R0 (gauss_term a b c z) N)) with (sum_f_R0 (gauss_term a b c z) N) in Q by ring.
    rewrite (Rabs_minus_sym F) in Q. lra.
  - exists (S N), v. intros fuel Hf. apply (f21_loop_more a b c z (S N)); [|exact Hf]. unfold f21_norm. rops. cbn [sum_f_R0 INR] in Hv. rewrite S0 in Hv. exact Hv.
Qed.
Lemma f21_stop_acc (a b c z : R) k v F : 0 < c -> f21_norm k a b c z = Some v -> 0 < F -> (forall N, sum_f_R0 (gauss_term a b c z) N <> 0) ->
  (forall N, Rabs (F - sum_f_R0 (gauss_term a b c z) N) <= Rabs (gauss_term a b c z N)) -> Rabs (v - F) <= 3 / 10000000000000000 * F.
Proof.
  intros Hc E PF NZ B. destruct (f21_norm_partial a b c z k v Hc E) as (N & -> & HN). rewrite f21_tol_R in HN. pose proof (B N) as BN. rewrite Rabs_minus_sym in BN.
  destruct N as [|N].
  - exfalso. unfold gauss_term in HN. cbn in HN. replace (1 * 1 / 1 * 1 / 1) with 1 in HN by field. rewrite Rabs_R1 in HN. lra.
  - pose proof (Rabs_pos_lt _ (NZ N)) as Q. apply (Rmult_le_compat_r _ _ _ (Rlt_le _ _ Q)) in HN. unfold Rdiv at 1 in HN. rewrite Rmult_assoc, Rinv_l, Rmult_1_r in HN by lra. cbn [sum_f_R0] in *.
    set (S := sum_f_R0 (gauss_term a b c z) N) in *. set (t := gauss_term a b c z (Datatypes.S N)) in *.
    assert (Rabs S <= F + 2 * Rabs t).
    { replace S with (F + ((S + t - F) - t)) by ring. eapply Rle_trans; [apply Rabs_triang|]. rewrite (Rabs_pos_eq F) by lra. apply Rplus_le_compat_l. eapply Rle_trans; [apply Rabs_triang|]. rewrite Rabs_Ropp. lra. }
    lra.
Qed.
(** * Tails of alternating-then-geometric series *)
Lemma tail_pos (T : nat -> R) (F : R) M : is_series T F -> (forall j, (M <= j)%nat -> exists r, 0 <= r <= 1 / 2 /\ T (S j) = r * T j) ->
  forall N, (M <= N)%nat -> 0 <= T N -> 0 <= F - sum_f_R0 T N <= T N.
Proof.
  intros HF HR N HN P. assert (PP : forall n, 0 <= T (N + n)%nat).
  { induction n; [now rewrite Nat.add_0_r|]. rewrite Nat.add_succ_r. destruct (HR (N + n)%nat ltac:(lia)) as (r & Hr & ->). apply Rmult_le_pos; lra. }
  destruct (geom_tail (fun n => T (N + n)%nat) 0 (1 / 2)) as (l & Hl & A); [lra|exact PP| |].
  { intros n _. rewrite Nat.add_succ_r. destruct (HR (N + n)%nat ltac:(lia)) as (r & Hr & ->). rewrite (Rmult_comm r). apply Rmult_le_compat_l; [apply PP|lra]. }
  cbn [sum_f_R0] in A. rewrite Nat.add_0_r in A. replace (T N * (1 / 2 / (1 - 1 / 2))) with (T N) in A by field.
  assert (E : l = F - sum_f_R0 T N + T N).
  { destruct N as [|N].
    - cbn [sum_f_R0]. assert (l = F); [|lra]. rewrite <- (is_series_unique _ _ Hl), <- (is_series_unique _ _ HF). reflexivity.
    - pose proof (is_series_incr_n T (S N) (F - sum_f_R0 T N) ltac:(lia)) as I. cbn [Init.Nat.pred] in I. cbn [sum_f_R0].
      assert (HI : is_series (fun k => T (S N + k)%nat) (F - sum_f_R0 T N)).
      { apply I. rewrite sum_n_Reals. match goal with |- is_series _ ?q => replace q with F; [exact HF|] end. unfold plus; cbn. ring. }
      assert (l = F - sum_f_R0 T N); [|lra]. rewrite <- (is_series_unique _ _ Hl). exact (is_series_unique _ _ HI). }
  lra.
Qed.
Lemma tail_geo (T : nat -> R) (F : R) M : is_series T F -> (forall j, (M <= j)%nat -> exists r, 0 <= r <= 1 / 2 /\ T (S j) = r * T j) ->
  forall N, (M <= N)%nat -> exists h, 0 <= h <= 1 /\ F - sum_f_R0 T N = h * T N.
Proof.
  intros HF HR N HN. destruct (Rtotal_order (T N) 0) as [L|[Z|L]].
  - assert (HF' : is_series (fun n => - T n) (- F)) by exact (is_series_opp T F HF).
    assert (HR' : forall j, (M <= j)%nat -> exists r, 0 <= r <= 1 / 2 /\ - T (S j) = r * - T j).
    { intros j Hj. destruct (HR j Hj) as (r & Hr & E). exists r. split; [exact Hr|]. rewrite E. ring. }
    pose proof (tail_pos _ _ M HF' HR' N HN ltac:(lra)) as A. assert (S0 : sum_f_R0 (fun n => - T n) N = - sum_f_R0 T N) by (clear; induction N; cbn; [reflexivity|rewrite IHN; ring]).
    cbv beta in A. rewrite S0 in A. exists ((F - sum_f_R0 T N) / T N). split; [|field; lra]. split.
    + replace ((F - sum_f_R0 T N) / T N) with ((- F - - sum_f_R0 T N) / (- T N)) by (field; lra). apply Rdiv_le_0_compat; lra.
    + replace ((F - sum_f_R0 T N) / T N) with ((- F - - sum_f_R0 T N) / (- T N)) by (field; lra). apply Rle_div_l; lra.
  - pose proof (tail_pos _ _ M HF HR N HN ltac:(lra)) as A. exists 0. split; [lra|]. lra.
  - pose proof (tail_pos _ _ M HF HR N HN ltac:(lra)) as A. exists ((F - sum_f_R0 T N) / T N). split; [|field; lra]. split; [apply Rdiv_le_0_compat; lra|apply Rle_div_l; lra].
Qed.
Lemma tail_alt (T : nat -> R) (F : R) M : is_series T F -> (forall j, (M <= j)%nat -> exists r, 0 <= r <= 1 / 2 /\ T (S j) = r * T j) ->
  (forall j, (j < M)%nat -> exists r, 0 <= r < 1 /\ T (S j) = - r * T j) -> (forall j, S j = M -> exists r, 0 <= r <= 1 / 2 /\ T (S j) = - r * T j) ->
  forall d N, (N + S d = M)%nat -> exists h, 0 <= h <= 1 /\ F - sum_f_R0 T N = - h * T N.
Proof.
  intros HF HG HA HL. induction d as [|d IH]; intros N E.
  - destruct (HL N ltac:(lia)) as (r & Hr & ER). destruct (tail_geo T F M HF HG (S N) ltac:(lia)) as (h & Hh & EH). cbn [sum_f_R0] in EH.
    exists ((1 + h) * r). split; [nra|]. replace (F - sum_f_R0 T N) with (T (S N) + (F - (sum_f_R0 T N + T (S N)))) by ring. rewrite EH, ER. ring.
  - destruct (HA N ltac:(lia)) as (r & Hr & ER). destruct (IH (S N) ltac:(lia)) as (h & Hh & EH). cbn [sum_f_R0] in EH.
    exists ((1 - h) * r). split; [nra|]. replace (F - sum_f_R0 T N) with (T (S N) + (F - (sum_f_R0 T N + T (S N)))) by ring. rewrite EH, ER. ring.
Qed.
Lemma tail_all (T : nat -> R) (F : R) M : is_series T F -> (forall j, (M <= j)%nat -> exists r, 0 <= r <= 1 / 2 /\ T (S j) = r * T j) ->
  (forall j, (j < M)%nat -> exists r, 0 <= r < 1 /\ T (S j) = - r * T j) -> (forall j, S j = M -> exists r, 0 <= r <= 1 / 2 /\ T (S j) = - r * T j) ->
  T O = 1 -> 0 < F ->
  (forall N, Rabs (F - sum_f_R0 T N) <= Rabs (T N)) /\ (forall N, sum_f_R0 T N <> 0).
Proof.
  intros HF HG HA HL T0 PF.
  assert (B : forall N h, 0 <= h <= 1 -> Rabs (h * T N) <= Rabs (T N)).
  { intros N h Hh. rewrite Rabs_mult, (Rabs_pos_eq h) by lra. pose proof (Rabs_pos (T N)). nra. }
  assert (FW : forall N, (N <= M)%nat -> (0 < T N -> T N <= sum_f_R0 T N) /\ 0 < sum_f_R0 T N).
  { induction N as [|N IH]; intro H; [cbn; rewrite T0; lra|]. destruct (IH ltac:(lia)) as [I1 I2]. destruct (HA N ltac:(lia)) as (r & Hr & E). cbn [sum_f_R0].
    destruct (Rtotal_order (T N) 0) as [L|[Z|L]].
    - assert (0 <= T (S N)) by (rewrite E; nra). split; lra.
    - assert (Q : T (S N) = 0) by (rewrite E, Z; ring). rewrite Q. split; lra.
    - specialize (I1 L). assert (T (S N) <= 0) by (rewrite E; nra). split; [lra|]. rewrite E. nra. }
  split; intro N; destruct (Nat.lt_ge_cases N M) as [H|H].
  - destruct (tail_alt T F M HF HG HA HL (M - S N) N ltac:(lia)) as (h & Hh & ->). rewrite <- Ropp_mult_distr_l, Rabs_Ropp. now apply B.
  - destruct (tail_geo T F M HF HG N H) as (h & Hh & ->). now apply B.
  - destruct (FW N ltac:(lia)). lra.
  - destruct (tail_geo T F M HF HG N H) as (h & Hh & E). destruct (Rle_lt_dec (T N) 0) as [L|L]; [nra|].
    assert (PM : forall k, 0 < T (M + k)%nat -> 0 < sum_f_R0 T (M + k)).
    { induction k as [|k IH]; intro P; [rewrite Nat.add_0_r in *; now apply FW|]. rewrite Nat.add_succ_r in *. destruct (HG (M + k)%nat ltac:(lia)) as (r & Hr & ER). cbn [sum_f_R0].
      assert (0 < T (M + k)%nat). { destruct (Rlt_le_dec 0 (T (M + k)%nat)); [assumption|]. exfalso. rewrite ER in P. nra. }
      specialize (IH ltac:(assumption)). lra. }
    replace N with (M + (N - M))%nat by lia. apply Rgt_not_eq. apply PM. replace (M + (N - M))%nat with N by lia. exact L.
Qed.
(** * The region x^2 <= n *)
Lemma tsub_abs n x : 0 < n -> 0 <= tsub n x < 1.
Proof.
  intros Hn. pose proof (tsub_den n Hn x) as D. unfold tsub. split; [apply Rdiv_le_0_compat; nra|]. apply Rlt_div_l; lra.
Qed.
Lemma tsub_u n x : 0 < n -> 1 - tsub n x = / (1 + x * x / n).
Proof. intros Hn. pose proof (tsub_den n Hn x). unfold tsub. field. split; lra. Qed.
Lemma pfaff_int n x : 0 < n -> x * (Rpower (1 + x * x / n) (- (1 / 2)) * PSeries (hcf (1 - n / 2)) (tsub n x)) = tint n x.
Proof.
  intros Hn. set (G := fun x => x * (Rpower (1 + x * x / n) (- (1 / 2)) * PSeries (hcf (1 - n / 2)) (tsub n x))).
  assert (D : forall t, is_derive G t (tker n ((n + 1) / 2) t)).
  { intro t. pose proof (tker_arg n t Hn) as U. pose proof (tsub_den n Hn t) as Dn. pose proof (tsub_abs n t Hn) as W. assert (WA : Rabs (tsub n t) < 1) by (rewrite Rabs_pos_eq; lra).
    set (u := 1 + t * t / n) in *. pose proof (tpow_derive n Hn (1 / 2) t) as D1. fold u in D1.
    assert (D2 : is_derive (tsub n) t (2 * n * t / ((n + t * t) * (n + t * t)))) by (unfold tsub; auto_derive; [lra|field; lra]).
    pose proof (is_derive_comp (PSeries (hcf (1 - n / 2))) (tsub n) t _ _ (is_derive_PSeries (hcf (1 - n / 2)) (tsub n t) (in_radius _ _ (hcf_radius _) WA)) D2) as D3.
    pose proof (is_derive_mult (fun x => Rpower (1 + x * x / n) (- (1 / 2))) (fun x => PSeries (hcf (1 - n / 2)) (tsub n x)) t _ _ D1 D3 Rmult_comm) as D4.
    pose proof (is_derive_mult (fun x : R => x) (fun x => Rpower (1 + x * x / n) (- (1 / 2)) * PSeries (hcf (1 - n / 2)) (tsub n x)) t 1 _ (is_derive_id t) D4 Rmult_comm) as D5.
    match type of D5 with is_derive _ _ ?q => replace (tker n ((n + 1) / 2) t) with q; [exact D5|] end.
    unfold plus, mult, scal; cbn. unfold mult; cbn. fold u. pose proof (hser_ode (1 - n / 2) (tsub n t) WA) as O. rewrite tsub_u in O by assumption. fold u in O.
    assert (O' : Rpower (/ u) (- (1 - n / 2)) = Rpower u (1 - n / 2)) by (unfold Rpower; rewrite ln_Rinv by assumption; f_equal; ring). rewrite O' in O.
    replace (- (1 / 2 + 1)) with (- (1 / 2) + - (1)) by field. unfold tker. fold u. replace (- ((n + 1) / 2)) with ((1 - n / 2) + (- (1 / 2) + - (1))) by field. rewrite !Rpower_plus, <- O.
    rewrite (Rpower_Ropp u 1), Rpower_1 by assumption. set (p := Rpower u (- (1 / 2))). set (P := PSeries (hcf (1 - n / 2)) (tsub n t)). set (P' := PSeries (PS_derive (hcf (1 - n / 2))) (tsub n t)).
    clearbody p P P'. unfold tsub, u. field. split; nra. }
  assert (E0 : G 0 = tint n 0) by (unfold G; rewrite tint_0 by assumption; ring).
  assert (C : forall t, is_derive (fun t => G t - tint n t) t 0).
  { intro t. replace 0 with (minus (tker n ((n + 1) / 2) t) (tker n ((n + 1) / 2) t)) by (unfold minus, plus, opp; cbn; ring). apply (is_derive_minus G (tint n)); [apply D|now apply tint_derive]. }
  assert (E : G x - tint n x = G 0 - tint n 0).
  { destruct (Rtotal_order x 0) as [L|[->|L]]; [|reflexivity|symmetry]; apply (eq_is_derive (fun t => G t - tint n t)); auto. }
  unfold G in E at 1. lra.
Qed.
Lemma tint_pos n x : 0 < n -> 0 < x -> 0 < tint n x.
Proof.
  intros Hn Hx. destruct (MVT_gen (tint n) 0 x (tker n ((n + 1) / 2))) as (y & Hy & E).
  - intros t _. now apply tint_derive.
  - intros t _. apply continuity_pt_filterlim. apply (ex_derive_continuous (tint n) t). eexists. now apply tint_derive.
  - rewrite tint_0 in E by assumption. assert (0 < tker n ((n + 1) / 2) y) by apply exp_pos. nra.
Qed.
Lemma nat_ceil m : exists M, m <= INR M /\ forall j, S j = M -> INR j < m <= INR j + 1.
Proof.
  destruct (Rle_lt_dec m 0) as [H|H]; [exists O; split; [cbn; lra|discriminate]|].
  destruct (nfloor_ex m ltac:(lra)) as [N [N1 N2]]. destruct (Req_dec (INR N) m) as [E|E].
  - exists N. split; [lra|]. intros j Hj. subst N. rewrite S_INR in *. lra.
  - exists (S N). rewrite S_INR. split; [lra|]. intros j Hj. injection Hj as ->. lra.
Qed.
Lemma half_ratio (b w : R) j : gauss_term (1 / 2) b (3 / 2) w (S j) = (b + INR j) * w * ((2 * INR j + 1) / ((2 * INR j + 3) * (INR j + 1))) * gauss_term (1 / 2) b (3 / 2) w j.
Proof. rewrite gauss_term_S by lra. pose proof (pos_INR j). field. repeat split; lra. Qed.
Lemma half_third j : 0 < (2 * INR j + 1) / ((2 * INR j + 3) * (INR j + 1)) <= 1 / 3.
Proof.
  pose proof (pos_INR j). split; [apply Rdiv_lt_0_compat; nra|]. apply Rle_div_l; [nra|]. destruct j as [|j]; [cbn; lra|]. rewrite S_INR in *. pose proof (pos_INR j). nra.
Qed.
Lemma half_acc (b w F : R) k v : b <= 1 -> 0 <= w <= 1 / 2 -> - b * w < 3 -> PSeries (hcf b) w = F -> 0 < F -> f21_norm k (1 / 2) b (3 / 2) w = Some v ->
  Rabs (v - F) <= 3 / 10000000000000000 * F.
Proof.
  intros Hb Hw Hm EF PF E. assert (WA : Rabs w < 1) by (rewrite Rabs_pos_eq; lra). pose proof (hser_series b w WA) as HS. rewrite EF in HS.
  destruct (nat_ceil (- b)) as (M & M1 & M2).
  destruct (tail_all (gauss_term (1 / 2) b (3 / 2) w) F M) as [A B]; try assumption.
  - intros j Hj. apply le_INR in Hj. exists ((b + INR j) * w * ((2 * INR j + 1) / ((2 * INR j + 3) * (INR j + 1)))). split; [|apply half_ratio].
    pose proof (half_third j) as Q. pose proof (pos_INR j) as PJ. set (q := (2 * INR j + 1) / ((2 * INR j + 3) * (INR j + 1))) in *.
    assert (Q2 : q * (INR j + 1) <= 1). { unfold q. replace ((2 * INR j + 1) / ((2 * INR j + 3) * (INR j + 1)) * (INR j + 1)) with ((2 * INR j + 1) / (2 * INR j + 3)) by (field; lra). apply Rle_div_l; lra. }
    split; [apply Rmult_le_pos; [apply Rmult_le_pos; lra|lra]|]. apply Rle_trans with (w * (q * (INR j + 1))); [|nra].
    replace ((b + INR j) * w * q) with (w * (q * (b + INR j))) by ring. apply Rmult_le_compat_l; [lra|]. apply Rmult_le_compat_l; lra.
  - intros j Hj. assert (JM : INR j < - b). { destruct M as [|M]; [lia|]. destruct (M2 M eq_refl). assert (INR j <= INR M) by (apply le_INR; lia). lra. }
    exists ((- b - INR j) * w * ((2 * INR j + 1) / ((2 * INR j + 3) * (INR j + 1)))). split; [|rewrite half_ratio; ring].
    pose proof (half_third j) as Q. pose proof (pos_INR j) as PJ. set (q := (2 * INR j + 1) / ((2 * INR j + 3) * (INR j + 1))) in *.
    assert (0 <= (- b - INR j) * w) by (apply Rmult_le_pos; lra). assert ((- b - INR j) * w < 3) by nra. split; [apply Rmult_le_pos; lra|]. nra.
  - intros j Hj. destruct (M2 j Hj) as [J1 J2].
    exists ((- b - INR j) * w * ((2 * INR j + 1) / ((2 * INR j + 3) * (INR j + 1)))). split; [|rewrite half_ratio; ring].
    pose proof (half_third j) as Q. pose proof (pos_INR j) as PJ. set (q := (2 * INR j + 1) / ((2 * INR j + 3) * (INR j + 1))) in *.
    assert (0 <= (- b - INR j) * w <= 1 / 2) by (split; [apply Rmult_le_pos; lra|nra]). split; [apply Rmult_le_pos; lra|]. nra.
  - unfold gauss_term; cbn; field.
  - apply (f21_stop_acc (1 / 2) b (3 / 2) w k); auto. lra.
Qed.
(** * The region x^2 > n *)
Definition pcf (k : R) (j : nat) : R := rising k j / rising (k + 1 / 2) j.
Lemma pcf_term k y j : 0 < k -> gauss_term 1 k (k + 1 / 2) y j = pcf k j * y ^ j.
Proof.
  intros Hk. unfold gauss_term, pcf. rewrite rising_1. pose proof (SpecialNew_proofs.rising_pos (k + 1 / 2) j ltac:(lra)). pose proof (INR_fact_neq_0 j). field. split; lra.
Qed.
Lemma pcf_S k j : 0 < k -> pcf k (S j) * (2 * k + 2 * INR j + 1) = pcf k j * (2 * k + 2 * INR j).
Proof.
  intros Hk. unfold pcf. cbn [rising]. pose proof (SpecialNew_proofs.rising_pos (k + 1 / 2) j ltac:(lra)). pose proof (pos_INR j). field. split; lra.
Qed.
Lemma pcf_range k j : 0 < k -> 0 < pcf k j <= 1.
Proof.
  intros Hk. induction j; [unfold pcf; cbn; lra|]. pose proof (pcf_S k j Hk) as E. pose proof (pos_INR j). destruct IHj as [A B].
  assert (P : pcf k (S j) = pcf k j * ((2 * k + 2 * INR j) / (2 * k + 2 * INR j + 1))) by (apply Rmult_eq_reg_r with (2 * k + 2 * INR j + 1); [rewrite E; field; lra|lra]).
  assert (Q : 0 < (2 * k + 2 * INR j) / (2 * k + 2 * INR j + 1) <= 1) by (split; [apply Rdiv_lt_0_compat; lra|apply Rle_div_l; lra]).
  rewrite P. split; [apply Rmult_lt_0_compat; lra|]. nra.
Qed.
Lemma pcf_radius k : 0 < k -> Rbar_le 1 (CV_radius (pcf k)).
Proof.
  intros Hk. eapply Rbar_le_trans; [apply (bcf_radius 1)|]. apply CV_radius_le. intro n. pose proof (pcf_range k n Hk).
  unfold bcf. rewrite rising_1. replace (INR (fact n) / INR (fact n)) with 1 by (field; apply INR_fact_neq_0). rewrite Rabs_R1, Rabs_pos_eq; lra.
Qed.
Lemma pser_series k y : 0 < k -> Rabs y < 1 -> is_series (gauss_term 1 k (k + 1 / 2) y) (PSeries (pcf k) y).
Proof.
  intros Hk Hw. pose proof (PSeries_correct (pcf k) y) as C. apply is_pseries_R in C; [|apply CV_radius_inside, in_radius; [now apply pcf_radius|assumption]].
  eapply is_series_ext; [|exact C]. intro n. cbv beta. now rewrite pcf_term.
Qed.
Lemma pser_ode k y : 0 < k -> Rabs y < 1 -> 2 * ((1 - y) * (y * PSeries (PS_derive (pcf k)) y)) + (2 * k * (1 - y) - 1) * PSeries (pcf k) y = 2 * k - 1.
Proof.
  intros Hk Hy. pose proof (in_radius _ _ (pcf_radius k Hk) Hy) as Rt. pose proof (CV_radius_inside _ _ Rt) as X0. pose proof (ps_wderive_ex _ _ Rt) as X1.
  rewrite ps_wderive by assumption. set (A := PSeries (fun j => INR j * pcf k j) y). set (P := PSeries (pcf k) y).
  (* (2 A + (2k-1) P) = (2k - 1) + y (2 A + 2 k P) *)
  assert (E : 2 * A + (2 * k - 1) * P = (2 * k - 1) + y * (2 * A + 2 * k * P)); [|lra].
  assert (X2 : ex_pseries (fun j => (2 * INR j + 2 * k) * pcf k j) y).
  { apply (ex_pseries_ext (PS_plus (PS_scal 2 (fun j => INR j * pcf k j)) (PS_scal (2 * k) (pcf k)))); [intro n; change (2 * (INR n * pcf k n) + 2 * k * pcf k n = (2 * INR n + 2 * k) * pcf k n); ring|].
    apply ex_pseries_plus; apply ex_pseries_scal; auto; apply Rmult_comm. }
  assert (L : 2 * A + (2 * k - 1) * P = PSeries (fun j => (2 * INR j + (2 * k - 1)) * pcf k j) y).
  { unfold A, P. rewrite <- !PSeries_scal, <- PSeries_plus by (apply ex_pseries_scal; [apply Rmult_comm|assumption]). apply PSeries_ext. intro n.
    change (2 * (INR n * pcf k n) + (2 * k - 1) * pcf k n = (2 * INR n + (2 * k - 1)) * pcf k n). ring. }
  assert (M : 2 * A + 2 * k * P = PSeries (fun j => (2 * INR j + 2 * k) * pcf k j) y).
  { unfold A, P. rewrite <- !PSeries_scal, <- PSeries_plus by (apply ex_pseries_scal; [apply Rmult_comm|assumption]). apply PSeries_ext. intro n.
    change (2 * (INR n * pcf k n) + 2 * k * pcf k n = (2 * INR n + 2 * k) * pcf k n). ring. }
  rewrite L, M. rewrite PSeries_decr_1.
  - f_equal; [cbn [INR]; unfold pcf; cbn [rising]; field|]. f_equal. apply PSeries_ext. intro n. unfold PS_decr_1. rewrite S_INR. pose proof (pcf_S k n Hk) as Q. nra.
  - apply (ex_pseries_ext (PS_plus (PS_scal 2 (fun j => INR j * pcf k j)) (PS_scal (2 * k - 1) (pcf k)))); [intro n; change (2 * (INR n * pcf k n) + (2 * k - 1) * pcf k n = (2 * INR n + (2 * k - 1)) * pcf k n); ring|].
    apply ex_pseries_plus; apply ex_pseries_scal; auto; apply Rmult_comm.
Qed.
Definition tup (n x : R) : R := x * Rpower (1 + x * x / n) (- ((n + 1) / 2)) * PSeries (pcf ((n + 1) / 2)) (/ (1 + x * x / n)) / n.
Lemma inv_u_lt n x : 0 < n -> x <> 0 -> 0 < / (1 + x * x / n) < 1.
Proof.
  intros Hn Hx. assert (0 < x * x / n) by (apply Rdiv_lt_0_compat; [nra|assumption]). split; [apply Rinv_0_lt_compat; lra|]. rewrite <- Rinv_1 at 2. apply Rinv_lt_contravar; lra.
Qed.
Lemma tup_derive n x : 0 < n -> 0 < x -> is_derive (tup n) x (- tker n ((n + 1) / 2) x).
Proof.
  intros Hn Hx. pose proof (tker_arg n x Hn) as U. destruct (inv_u_lt n x Hn ltac:(lra)) as [Y0 Y1]. set (k := (n + 1) / 2) in *. assert (Hk : 0 < k) by (unfold k; lra).
  assert (YA : Rabs (/ (1 + x * x / n)) < 1) by (rewrite Rabs_pos_eq; lra).
  pose proof (tpow_derive n Hn k x) as D1.
  pose proof (is_derive_mult (fun x : R => x) (fun x => Rpower (1 + x * x / n) (- k)) x 1 _ (is_derive_id x) D1 Rmult_comm) as D2.
  assert (D3 : is_derive (fun x => / (1 + x * x / n)) x (- (2 * x / n) / ((1 + x * x / n) * (1 + x * x / n)))).
  { auto_derive; [unfold Rdiv in U; lra|]. field. split; nra. }
  pose proof (is_derive_comp (PSeries (pcf k)) (fun x => / (1 + x * x / n)) x _ _ (is_derive_PSeries (pcf k) _ (in_radius _ _ (pcf_radius k Hk) YA)) D3) as D4.
  pose proof (is_derive_mult (fun x => x * Rpower (1 + x * x / n) (- k)) (fun x => PSeries (pcf k) (/ (1 + x * x / n))) x _ _ D2 D4 Rmult_comm) as D5.
  pose proof (is_derive_scal (fun x => x * Rpower (1 + x * x / n) (- k) * PSeries (pcf k) (/ (1 + x * x / n))) x (/ n) _ D5) as D6.
  apply (is_derive_ext (fun x => / n * (x * Rpower (1 + x * x / n) (- k) * PSeries (pcf k) (/ (1 + x * x / n))))); [intro t; unfold tup; fold k; unfold Rdiv; match goal with |- ?p = ?q => change (@eq R p q) end; ring|].
  match type of D6 with is_derive _ _ ?q => replace (- tker n k x) with q; [exact D6|] end.
  pose proof (pser_ode k _ Hk YA) as O. unfold plus, mult, scal; cbn. unfold mult; cbn. unfold tker.
  set (P := PSeries (pcf k) (/ (1 + x * x / n))) in *. set (P' := PSeries (PS_derive (pcf k)) (/ (1 + x * x / n))) in *.
  replace (- (k + 1)) with (- k + - (1)) by ring. rewrite Rpower_plus, (Rpower_Ropp _ 1), Rpower_1 by assumption. set (q := Rpower (1 + x * x / n) (- k)).
  set (u := 1 + x * x / n) in *. assert (XU : x * x = n * (u - 1)) by (unfold u; field; lra). assert (NK : n = 2 * k - 1) by (unfold k; field).
  clearbody P P' q u.
  transitivity (q / n * ((1 - 2 * k * (1 - / u)) * P - 2 * ((1 - / u) * (/ u * P')))).
  - transitivity (q / n * (P - 2 * k * (x * x / n) / u * P - 2 * (x * x / n) / (u * u) * P')); [field; lra|]. rewrite XU. field. lra.
  - replace ((1 - 2 * k * (1 - / u)) * P - 2 * ((1 - / u) * (/ u * P'))) with (- (2 * ((1 - / u) * (/ u * P')) + (2 * k * (1 - / u) - 1) * P)) by ring. rewrite O, <- NK. field. lra.
Qed.
Lemma lim_inv_u n : 0 < n -> filterlim (fun x => / (1 + x * x / n)) (Rbar_locally' p_infty) (locally 0).
Proof.
  intros Hn. pose proof (tpow_lim n Hn 1 ltac:(lra)) as L. apply (is_lim_ext _ (fun x => / (1 + x * x / n))) in L; [exact L|].
  intro y. rewrite Rpower_Ropp, Rpower_1; [reflexivity|now apply tker_arg].
Qed.
Lemma tup_lim n : 0 < n -> is_lim (tup n) p_infty 0.
Proof.
  intros Hn. set (k := (n + 1) / 2). assert (Hk : 0 < k) by (unfold k; lra).
  assert (C : continuous (PSeries (pcf k)) 0).
  { apply (ex_derive_continuous (PSeries (pcf k)) 0). eexists. apply is_derive_PSeries. apply in_radius; [now apply pcf_radius|]. rewrite Rabs_R0. lra. }
  assert (L1 : is_lim (fun x => PSeries (pcf k) (/ (1 + x * x / n))) p_infty (PSeries (pcf k) 0)).
  { unfold is_lim. apply (filterlim_comp _ _ _ (fun x => / (1 + x * x / n)) (PSeries (pcf k)) _ (locally 0)); [now apply lim_inv_u|exact C]. }
  pose proof (txpow_lim n Hn k ltac:(unfold k; lra)) as L2.
  apply (is_lim_ext (fun x => / n * (x * Rpower (1 + x * x / n) (- k) * PSeries (pcf k) (/ (1 + x * x / n))))); [intro; unfold tup; fold k; unfold Rdiv; ring|].
  replace (Finite 0) with (Rbar_mult (/ n) (Finite (0 * PSeries (pcf k) 0))) by (cbn; f_equal; ring). apply is_lim_scal_l.
  apply (is_lim_mult (fun x => x * Rpower (1 + x * x / n) (- k)) (fun x => PSeries (pcf k) (/ (1 + x * x / n))) p_infty 0 (PSeries (pcf k) 0)); [assumption|assumption|exact I].
Qed.
Lemma tint_tup n x B : 0 < n -> 0 < x -> euler_beta (1 / 2) (n / 2) B -> tint n x = sqrt n / 2 * B - tup n x.
Proof.
  intros Hn Hx HB. pose proof (tint_lim n Hn B HB) as L. pose proof (tup_lim n Hn) as U.
  assert (C : forall y, 0 < y -> tint n y + tup n y = tint n x + tup n x).
  { assert (D : forall t, 0 < t -> is_derive (fun t => tint n t + tup n t) t 0).
    { intros t Ht. replace 0 with (plus (tker n ((n + 1) / 2) t) (- tker n ((n + 1) / 2) t)) by (unfold plus; cbn; ring). apply (is_derive_plus (tint n) (tup n)); [now apply tint_derive|now apply tup_derive]. }
    intros y Hy. destruct (Rtotal_order x y) as [H|[->|H]]; [symmetry|reflexivity|]; (apply (eq_is_derive (fun t => tint n t + tup n t)); [intros t Ht; apply D; lra|exact H]). }
  assert (S : is_lim (fun y => tint n y + tup n y) p_infty (sqrt n / 2 * B + 0)) by (apply (is_lim_plus' (tint n) (tup n)); assumption).
  assert (S' : is_lim (fun y => tint n y + tup n y) p_infty (tint n x + tup n x)).
  { apply (is_lim_ext_loc (fun _ => tint n x + tup n x)); [exists 0; intros y Hy; symmetry; now apply C|apply is_lim_const]. }
  apply is_lim_unique in S. apply is_lim_unique in S'. rewrite S in S'. injection S' as E. lra.
Qed.
(** The first hypergeometric factor: a cancelled parameter. *)
Lemma f21_cancel (b y : R) : (forall j, b + INR j <> 0) -> forall k n ci si sip, f21_loop k (1 / 2) b b y ci si sip (INR n) = f21_loop k (1 / 2) 1 1 y ci si sip (INR n).
Proof.
  intros Hb. induction k as [|k IH]; intros n ci si sip; cbn [f21_loop]; [reflexivity|]. destruct (ltb _ _); [|reflexivity]. rops. pose proof (pos_INR n).
  replace ((1 / 2 + INR n) * (b + INR n) / (b + INR n)) with (1 / 2 + INR n) by (field; apply Hb). replace ((1 / 2 + INR n) * (1 + INR n) / (1 + INR n)) with (1 / 2 + INR n) by (field; lra).
  rewrite <- S_INR. apply IH.
Qed.
Lemma one_term y j : gauss_term (1 / 2) 1 1 y j = bcf (1 / 2) j * y ^ j.
Proof. unfold gauss_term, bcf. rewrite rising_1. pose proof (INR_fact_neq_0 j). field. lra. Qed.
Lemma one_series y : Rabs y < 1 -> is_series (gauss_term (1 / 2) 1 1 y) (Rpower (1 - y) (- (1 / 2))).
Proof.
  intros Hy. rewrite <- binomial_series by assumption. pose proof (PSeries_correct (bcf (1 / 2)) y) as C. apply is_pseries_R in C; [|apply CV_radius_inside, in_radius; [apply bcf_radius|assumption]].
  eapply is_series_ext; [|exact C]. intro n. cbv beta. now rewrite one_term.
Qed.
Lemma rel4 v1 v2 v3 v4 g1 g2 g3 g4 : g1 <> 0 -> g2 <> 0 -> g3 <> 0 -> g4 <> 0 ->
  Rabs (v1 - g1) <= 5 / 1000000000000 * Rabs g1 -> Rabs (v2 - g2) <= 5 / 1000000000000 * Rabs g2 ->
  Rabs (v3 - g3) <= 5 / 1000000000000 * Rabs g3 -> Rabs (v4 - g4) <= 5 / 1000000000000 * Rabs g4 ->
  exists e, Rabs e <= 21 / 1000000000000 /\ v1 * v2 / (v3 * v4) = g1 * g2 / (g3 * g4) * (1 + e).
Proof.
  assert (S : forall v g, g <> 0 -> Rabs (v - g) <= 5 / 1000000000000 * Rabs g -> exists e, Rabs e <= 5 / 1000000000000 /\ v = g * (1 + e)).
  { intros v g Hg H. exists ((v - g) / g). split; [|field; assumption]. unfold Rdiv at 1. rewrite Rabs_mult, Rabs_inv by assumption. apply Rabs_pos_lt in Hg. apply Rle_div_l; assumption. }
  intros H1 H2 H3 H4 A1 A2 A3 A4. destruct (S _ _ H1 A1) as (e1 & B1 & ->). destruct (S _ _ H2 A2) as (e2 & B2 & ->). destruct (S _ _ H3 A3) as (e3 & B3 & ->). destruct (S _ _ H4 A4) as (e4 & B4 & ->).
  apply Rabs_le_between in B1, B2, B3, B4. exists ((1 + e1) * (1 + e2) / ((1 + e3) * (1 + e4)) - 1). split; [|field; repeat split; lra].
  assert (D : 0 < (1 + e3) * (1 + e4)) by nra. apply Rabs_le. split.
  - assert (979 / 1000 <= 1) by lra. assert (1 - 21 / 1000000000000 <= (1 + e1) * (1 + e2) / ((1 + e3) * (1 + e4))); [|lra]. apply Rle_div_r; [exact D|].
    assert ((1 + e3) * (1 + e4) <= 1 + 101 / 10000000000000) by nra. assert (1 - 101 / 10000000000000 <= (1 + e1) * (1 + e2)) by nra. nra.
  - assert ((1 + e1) * (1 + e2) / ((1 + e3) * (1 + e4)) <= 1 + 21 / 1000000000000); [|lra]. apply Rle_div_l; [exact D|].
    assert (1 - 101 / 10000000000000 <= (1 + e3) * (1 + e4)) by nra. assert ((1 + e1) * (1 + e2) <= 1 + 101 / 10000000000000) by nra. nra.
Qed.
(** * Assembly *)
Lemma sf21_mid n x : 0 < n -> 0 < x -> x * x <= n -> (n - 2) * (x * x) < 6 * (n + x * x) ->
  exists k v, (forall fuel, (k <= fuel)%nat -> sf21 fuel (1 / 2) ((n + 1) / 2) (3 / 2) (- (x * x) / n) = Ret (Some v)) /\
  Rabs (x * v - tint n x) <= 3 / 10000000000000000 * tint n x.
Proof.
  intros Hn Hx H1 H2. pose proof (tker_arg n x Hn) as U. pose proof (tsub_den n Hn x) as DN. pose proof (tsub_abs n x Hn) as W. pose proof (tint_pos n x Hn Hx) as TP.
  assert (W2 : tsub n x <= 1 / 2) by (unfold tsub; apply Rle_div_l; lra). assert (WA : Rabs (tsub n x) < 1) by (rewrite Rabs_pos_eq; lra).
  pose proof (pfaff_int n x Hn) as E. set (F := PSeries (hcf (1 - n / 2)) (tsub n x)) in *. set (p := Rpower (1 + x * x / n) (- (1 / 2))) in *. assert (P : 0 < p) by apply exp_pos.
  assert (PF : 0 < F). { destruct (Rlt_le_dec 0 F) as [L|L]; [exact L|]. exfalso. assert (0 < x * p) by (now apply Rmult_lt_0_compat). nra. }
  pose proof (hser_series (1 - n / 2) (tsub n x) WA) as HS. fold F in HS.
  destruct (f21_terminates (1 / 2) (1 - n / 2) (3 / 2) (tsub n x) F ltac:(lra) HS ltac:(lra)) as (k & v & HK). exists k, (v * p). split.
  - intros fuel Hf. unfold sf21. rewrite lit_half'. rb. rops.
    assert (Z : - (x * x) / n < 0). { unfold Rdiv. rewrite <- Ropp_mult_distr_l. apply Ropp_lt_gt_0_contravar, Rlt_gt. apply Rdiv_lt_0_compat; [nra|assumption]. }
    assert (Z1 : -1 <= - (x * x) / n) by (apply Rle_div_r; lra).
    assert (A1 : 3 / 2 - (n + 1) / 2 = 1 - n / 2) by field. assert (A2 : - (x * x) / n / (- (x * x) / n - 1) = tsub n x) by (unfold tsub; field; split; nra).
    assert (A3 : 1 - - (x * x) / n = 1 + x * x / n) by (field; lra).
    repeat (rcase; try lra); (rewrite A1, A2, HK by exact Hf; rewrite A3, R_pow_pos by assumption; reflexivity).
  - assert (B : Rabs (v - F) <= 3 / 10000000000000000 * F).
    { apply (half_acc (1 - n / 2) (tsub n x) F k v); try lra; [|reflexivity|apply HK; lia].
      unfold tsub. replace (- (1 - n / 2) * (x * x / (n + x * x))) with ((n - 2) * (x * x) / 2 / (n + x * x)) by (field; lra). apply Rlt_div_l; lra. }
    rewrite <- E. replace (x * (v * p) - x * (p * F)) with (x * p * (v - F)) by ring. assert (XP : 0 < x * p) by now apply Rmult_lt_0_compat.
    rewrite Rabs_mult, (Rabs_pos_eq (x * p)) by lra. replace (3 / 10000000000000000 * (x * (p * F))) with (x * p * (3 / 10000000000000000 * F)) by ring. apply Rmult_le_compat_l; lra.
Qed.
Lemma sf21_high n x g1 g2 : 0 < n -> (forall j, n <> 2 * INR (S j)) -> 0 < x -> n < x * x -> euler_gamma ((n + 1) / 2) g1 -> euler_gamma (n / 2) g2 ->
  exists k v, (forall fuel, (k <= fuel)%nat -> sf21 fuel (1 / 2) ((n + 1) / 2) (3 / 2) (- (x * x) / n) = Ret (Some v)) /\
  exists A, A - tint n x = tup n x /\ A = sqrt n / 2 * (sqrt PI * g2 / g1) /\ Rabs (x * v - tint n x) <= 22 / 1000000000000 * (A + tup n x).
Proof.
  intros Hn Ho Hx H1 G1 G2. pose proof (tker_arg n x Hn) as U. destruct (inv_u_lt n x Hn ltac:(lra)) as [Y0 Y1]. pose proof (euler_gamma_pos _ _ G1) as P1. pose proof (euler_gamma_pos _ _ G2) as P2.
  destruct (beta_exists (1 / 2) (n / 2) ltac:(lra) ltac:(lra)) as [B HB]. pose proof (tint_tup n x B Hn Hx HB) as ET. rewrite (beta_t n Hn g1 g2 B G1 G2 HB) in ET.
  assert (SPI : 0 < sqrt PI) by (apply sqrt_lt_R0, PI_RGT_0). assert (SN : 0 < sqrt n) by (now apply sqrt_lt_R0). pose proof (sqrt_sqrt n ltac:(lra)) as SSN.
  set (u := 1 + x * x / n) in *. set (y := / u) in *. assert (YA : Rabs y < 1) by (rewrite Rabs_pos_eq; lra).
  assert (Y2 : y <= 1 / 2). { unfold y. rewrite <- (Rinv_inv (1 / 2)). apply Rinv_le_contravar; [lra|]. replace (/ (1 / 2)) with 2 by field. unfold u. assert (1 <= x * x / n) by (apply Rle_div_r; lra). lra. }
  set (k0 := (n + 1) / 2) in *. assert (Hk : 0 < k0) by (unfold k0; lra).
  assert (NP : forall j, 1 - n / 2 + INR j <> 0). { intros j E. apply (Ho j). rewrite S_INR. lra. }
  assert (NP2 : forall j, - (n / 2) + INR j <> 0). { intros [|j]; [cbn; lra|]. intro E. apply (NP j). rewrite S_INR in E. lra. }
  destruct (is_gamma_exists (1 - n / 2) NP) as [h2 Gh2]. assert (Gh1 : is_gamma (- (n / 2)) (h2 / (- (n / 2)))).
  { apply is_gamma_pred; [lra|]. replace (- (n / 2) + 1) with (1 - n / 2) by ring. exact Gh2. }
  assert (H2Z : h2 <> 0). { intro Z. subst h2. destruct Gh2 as [_ (m & Hm & He)]. apply euler_gamma_pos in He. rewrite Rmult_0_r in He. lra. }
  assert (G32 : is_gamma (3 / 2) (1 / 2 * sqrt PI)). { apply euler_is_gamma; [lra|]. replace (3 / 2) with (1 / 2 + 1) by field. apply euler_gamma_S; [lra|apply euler_gamma_half]. }
  destruct (sgamma_accuracy _ _ G32) as (w1 & E1 & A1). destruct (sgamma_accuracy _ _ (euler_is_gamma (n / 2) g2 ltac:(lra) G2)) as (w2 & E2 & A2).
  destruct (sgamma_accuracy _ _ (euler_is_gamma k0 g1 Hk G1)) as (w3 & E3 & A3). destruct (sgamma_accuracy _ _ (euler_is_gamma 1 1 ltac:(lra) euler_gamma_1)) as (w4 & E4 & A4).
  destruct (sgamma_accuracy _ _ Gh1) as (w5 & E5 & A5). destruct (sgamma_accuracy _ _ (euler_is_gamma (1 / 2) _ ltac:(lra) euler_gamma_half)) as (w6 & E6 & A6).
  destruct (sgamma_accuracy _ _ Gh2) as (w7 & E7 & A7).
  assert (NZ5 : h2 / (- (n / 2)) <> 0). { intro Z. apply H2Z. replace h2 with (h2 / (- (n / 2)) * (- (n / 2))) by (field; lra). rewrite Z. ring. }
  destruct (rel4 w1 w2 w3 w4 (1 / 2 * sqrt PI) g2 g1 1 ltac:(lra) ltac:(lra) ltac:(lra) ltac:(lra) A1 A2 A3 A4) as (d1 & D1 & Q1).
  destruct (rel4 w1 w5 w6 w7 (1 / 2 * sqrt PI) (h2 / (- (n / 2))) (sqrt PI) h2 ltac:(lra) NZ5 ltac:(lra) H2Z A1 A5 A6 A7) as (d2 & D2 & Q2).
  (* the two series *)
  assert (F1P : 0 < Rpower (1 - y) (- (1 / 2))) by apply exp_pos.
  destruct (f21_terminates (1 / 2) 1 1 y _ ltac:(lra) (one_series y YA) ltac:(lra)) as (k1 & v1 & K1).
  destruct (f21_norm_accuracy (1 / 2) 1 1 y k1 v1 ltac:(lra) ltac:(lra) ltac:(lra) (K1 k1 (le_n _))) as (F1 & S1 & B1).
  assert (EF1 : F1 = Rpower (1 - y) (- (1 / 2))) by (rewrite <- (is_series_unique _ _ S1); exact (is_series_unique _ _ (one_series y YA))). rewrite EF1 in B1.
  destruct (f21_norm_total 1 k0 (k0 + 1 / 2) y ltac:(lra) Hk ltac:(lra) ltac:(lra)) as (k2 & v2 & K2 & V2).
  destruct (f21_norm_accuracy 1 k0 (k0 + 1 / 2) y k2 v2 ltac:(lra) ltac:(lra) ltac:(lra) K2) as (F2 & S2 & B2).
  assert (EF2 : F2 = PSeries (pcf k0) y) by (rewrite <- (is_series_unique _ _ S2); exact (is_series_unique _ _ (pser_series k0 y Hk YA))). rewrite EF2 in B2.
  set (q1 := Rpower u (- (1 / 2))). set (q2 := Rpower u (- k0)). assert (Pq1 : 0 < q1) by apply exp_pos. assert (Pq2 : 0 < q2) by apply exp_pos.
  exists (Nat.max k1 k2), (q1 * w1 * w2 / (w3 * w4) * v1 + q2 * w1 * w5 / (w6 * w7) * v2). split.
  - intros fuel Hf. unfold sf21. rewrite lit_half'. rb. rops.
    assert (Z : - (x * x) / n < -1) by (apply Rlt_div_l; lra).
    assert (R1 : k0 - 1 / 2 = n / 2) by (unfold k0; field). assert (R2 : 3 / 2 - 1 / 2 = 1) by field. assert (R3 : 1 / 2 - k0 = - (n / 2)) by (unfold k0; field).
    assert (R4 : 3 / 2 - k0 = 1 - n / 2) by (unfold k0; field). assert (R5 : 1 - - (x * x) / n = u) by (unfold u; field; lra).
    assert (R6 : - (n / 2) + 1 = 1 - n / 2) by ring. assert (R7 : n / 2 + 1 = k0 + 1 / 2) by (unfold k0; field). assert (R8 : 1 / u = y) by (unfold y; field; lra).
    assert (L1 : f21_norm fuel (1 / 2) (1 - n / 2) (1 - n / 2) y = Some v1).
    { unfold f21_norm. rops. change 0 with (INR 0). rewrite (f21_cancel (1 - n / 2) y NP). apply (K1 fuel). lia. }
    assert (L2 : f21_norm fuel k0 1 (k0 + 1 / 2) y = Some v2).
    { unfold f21_norm. rewrite f21_loop_sym. apply (f21_loop_more 1 k0 (k0 + 1 / 2) y k2 v2 fuel K2). lia. }
    repeat (rcase; try lra); (rewrite R1, R2, R3, R4, R5, R6, R7, R8, E1, E2, E3, E4, E5, E6, E7; cbn [bind olift obind]; rewrite L1, L2; rewrite !R_pow_pos by assumption; reflexivity).
  - exists (sqrt n / 2 * (sqrt PI * g2 / g1)). split; [lra|]. split; [reflexivity|]. set (A := sqrt n / 2 * (sqrt PI * g2 / g1)) in *.
    assert (PA : 0 < A). { unfold A. apply Rmult_lt_0_compat; [lra|]. apply Rdiv_lt_0_compat; [apply Rmult_lt_0_compat|]; assumption. }
    assert (T1 : x * (q1 * (1 / 2 * sqrt PI * g2 / (g1 * 1)) * Rpower (1 - y) (- (1 / 2))) = A).
    { assert (M : q1 * Rpower (1 - y) (- (1 / 2)) = sqrt n / x).
      { unfold q1. assert (0 < 1 - y) by lra. rewrite Rpower_mult_distr by assumption. replace (u * (1 - y)) with (x * x / n) by (unfold y, u; field; split; nra).
        replace (1 / 2) with (/ 2) by field. assert (0 < x * x / n) by (apply Rdiv_lt_0_compat; [nra|assumption]). rewrite Rpower_Ropp, Rpower_sqrt by assumption.
        unfold Rdiv at 1. rewrite sqrt_mult by (try nra; left; now apply Rinv_0_lt_compat). rewrite (sqrt_square x) by lra. rewrite sqrt_inv. field. split; lra. }
      replace (x * (q1 * (1 / 2 * sqrt PI * g2 / (g1 * 1)) * Rpower (1 - y) (- (1 / 2)))) with (x * (1 / 2 * sqrt PI * g2 / (g1 * 1)) * (q1 * Rpower (1 - y) (- (1 / 2)))) by ring.
      rewrite M. unfold A. field. lra. }
    assert (T2 : x * (q2 * (1 / 2 * sqrt PI * (h2 / (- (n / 2))) / (sqrt PI * h2)) * PSeries (pcf k0) y) = - tup n x).
    { unfold tup. fold k0. fold u. fold y. fold q2. field. repeat split; lra. }
    assert (PU : 0 < tup n x). { unfold tup. fold k0. fold u. fold y. fold q2. apply Rdiv_lt_0_compat; [|assumption]. apply Rmult_lt_0_compat; [now apply Rmult_lt_0_compat|]. lra. }
    assert (C1 : exists e1, Rabs e1 <= 3 / 10000000000000000 /\ v1 = Rpower (1 - y) (- (1 / 2)) * (1 + e1)).
    { exists (v1 / Rpower (1 - y) (- (1 / 2)) - 1). split; [|field; lra]. set (f := Rpower (1 - y) (- (1 / 2))) in *. apply Rabs_le. split.
      - assert (1 - 3 / 10000000000000000 <= v1 / f); [|lra]. apply Rle_div_r; [assumption|]. lra.
      - assert (v1 / f <= 1); [|lra]. apply Rle_div_l; lra. }
    assert (C2 : exists e2, Rabs e2 <= 3 / 10000000000000000 /\ v2 = PSeries (pcf k0) y * (1 + e2)).
    { exists (v2 / PSeries (pcf k0) y - 1). split; [|field; lra]. set (f := PSeries (pcf k0) y) in *. assert (0 < f) by lra. apply Rabs_le. split.
      - assert (1 - 3 / 10000000000000000 <= v2 / f); [|lra]. apply Rle_div_r; [assumption|]. lra.
      - assert (v2 / f <= 1); [|lra]. apply Rle_div_l; lra. }
    destruct C1 as (e1 & X1 & ->). destruct C2 as (e2 & X2 & ->).
    replace (q1 * w1 * w2 / (w3 * w4)) with (q1 * (w1 * w2 / (w3 * w4))) by (unfold Rdiv; ring). replace (q2 * w1 * w5 / (w6 * w7)) with (q2 * (w1 * w5 / (w6 * w7))) by (unfold Rdiv; ring).
    rewrite Q1, Q2. set (f1 := Rpower (1 - y) (- (1 / 2))) in *. set (f2 := PSeries (pcf k0) y) in *.
    replace (x * (q1 * (1 / 2 * sqrt PI * g2 / (g1 * 1) * (1 + d1)) * (f1 * (1 + e1)) + q2 * (1 / 2 * sqrt PI * (h2 / - (n / 2)) / (sqrt PI * h2) * (1 + d2)) * (f2 * (1 + e2))))
      with (x * (q1 * (1 / 2 * sqrt PI * g2 / (g1 * 1)) * f1) * ((1 + d1) * (1 + e1)) + x * (q2 * (1 / 2 * sqrt PI * (h2 / (- (n / 2))) / (sqrt PI * h2)) * f2) * ((1 + d2) * (1 + e2))) by ring.
    rewrite T1, T2. replace (tint n x) with (A - tup n x) by lra.
    replace (A * ((1 + d1) * (1 + e1)) + - tup n x * ((1 + d2) * (1 + e2)) - (A - tup n x)) with (A * (d1 + e1 + d1 * e1) + - (tup n x * (d2 + e2 + d2 * e2))) by ring.
    assert (BD : forall d e, Rabs d <= 21 / 1000000000000 -> Rabs e <= 3 / 10000000000000000 -> Rabs (d + e + d * e) <= 22 / 1000000000000).
    { intros d e Hd He. eapply Rle_trans; [apply Rabs_triang|]. eapply Rle_trans; [apply Rplus_le_compat_r, Rabs_triang|]. rewrite Rabs_mult. pose proof (Rabs_pos d). pose proof (Rabs_pos e). nra. }
    eapply Rle_trans; [apply Rabs_triang|]. rewrite Rabs_Ropp, !Rabs_mult, (Rabs_pos_eq A), (Rabs_pos_eq (tup n x)) by lra. rewrite Rmult_plus_distr_l.
    apply Rplus_le_compat; rewrite Rmult_comm; (apply Rmult_le_compat_r; [lra|]); apply BD; assumption.
Qed.
Lemma td_cdf_impl n x fuel f v1 v2 : 0 < n -> sf21 fuel (1 / 2) ((n + 1) / 2) (3 / 2) (- (x * x) / n) = Ret (Some f) -> sgamma ((n + 1) / 2) = Ret v1 -> sgamma (n / 2) = Ret v2 -> 0 < v2 ->
  td_cdf (Sp := impl_special fuel) (mkT n) x = Ret (1 / 2 + tnorm n v1 v2 * (x * f)).
Proof.
  intros Hn E E1 E2 V2. unfold td_cdf; cbn [td_n x_gamma x_f21 impl_special]. rewrite !lit_2, !lit_R. rops. rewrite R_pow_2, E. cbn [bind defuel]. rewrite E1, E2. cbn [bind]. f_equal. unfold tnorm. f_equal. unfold Rdiv. ring.
Qed.
Lemma tnorm_half n g1 g2 : 0 < n -> 0 < g1 -> 0 < g2 -> tnorm n g1 g2 * (sqrt n / 2 * (sqrt PI * g2 / g1)) = 1 / 2.
Proof.
  intros Hn H1 H2. pose proof PI_RGT_0. unfold tnorm. rewrite sqrt_mult by lra. field. repeat split; try lra; apply Rgt_not_eq, sqrt_lt_R0; lra.
Qed.
Lemma td_cdf_acc_pos n g1 g2 x : 0 < n -> 0 < x -> euler_gamma ((n + 1) / 2) g1 -> euler_gamma (n / 2) g2 ->
  (x * x <= n -> (n - 2) * (x * x) < 6 * (n + x * x)) -> (n < x * x -> forall j, n <> 2 * INR (S j)) ->
  exists k v, (forall fuel, (k <= fuel)%nat -> td_cdf (Sp := impl_special fuel) (mkT n) x = Ret v) /\
  Rabs (v - (1 / 2 + tnorm n g1 g2 * tint n x)) <= 3 / 100000000000.
Proof.
  intros Hn Hx G1 G2 C1 C2. destruct (tnorm_acc n g1 g2 Hn G1 G2) as (v1 & v2 & E1 & E2 & V1 & V2 & A). pose proof (euler_gamma_pos _ _ G1) as P1. pose proof (euler_gamma_pos _ _ G2) as P2.
  pose proof (tint_pos n x Hn Hx) as TP. destruct (beta_exists (1 / 2) (n / 2) ltac:(lra) ltac:(lra)) as [B HB]. pose proof (tint_tup n x B Hn Hx HB) as ET. rewrite (beta_t n Hn g1 g2 B G1 G2 HB) in ET.
  pose proof (tnorm_half n g1 g2 Hn P1 P2) as TH. set (A0 := sqrt n / 2 * (sqrt PI * g2 / g1)) in *. set (N := tnorm n g1 g2) in *. set (V := tnorm n v1 v2) in *.
  assert (PN : 0 < N). { unfold N, tnorm. apply Rdiv_lt_0_compat; [assumption|]. apply Rmult_lt_0_compat; [|assumption]. apply sqrt_lt_R0. apply Rmult_lt_0_compat; [assumption|exact PI_RGT_0]. }
  assert (PU : 0 < tup n x).
  { unfold tup. apply Rdiv_lt_0_compat; [|assumption]. apply Rmult_lt_0_compat; [apply Rmult_lt_0_compat; [assumption|apply exp_pos]|]. destruct (inv_u_lt n x Hn ltac:(lra)) as [Y0 Y1].
    assert (YA : Rabs (/ (1 + x * x / n)) < 1) by (rewrite Rabs_pos_eq; lra). pose proof (pser_series ((n + 1) / 2) _ ltac:(lra) YA) as S.
    rewrite <- (is_series_unique _ _ S). rewrite Series_incr_1 by (eexists; exact S). apply Rplus_lt_le_0_compat; [unfold gauss_term; cbn; lra|].
    assert (EX : ex_series (fun k => gauss_term 1 ((n + 1) / 2) ((n + 1) / 2 + 1 / 2) (/ (1 + x * x / n)) (Datatypes.S k))) by (apply (ex_series_incr_1 (gauss_term 1 ((n + 1) / 2) ((n + 1) / 2 + 1 / 2) (/ (1 + x * x / n)))); eexists; exact S).
    rewrite <- (Rmult_0_l (Series (fun k => gauss_term 1 ((n + 1) / 2) ((n + 1) / 2 + 1 / 2) (/ (1 + x * x / n)) (Datatypes.S k)))), <- Series_scal_l.
    apply Series_le; [|exact EX]. intro m. rewrite Rmult_0_l. split; [lra|]. apply gauss_term_nonneg; lra. }
  assert (NT : N * tint n x <= 1 / 2) by nra.
  assert (M : exists k f, (forall fuel, (k <= fuel)%nat -> sf21 fuel (1 / 2) ((n + 1) / 2) (3 / 2) (- (x * x) / n) = Ret (Some f)) /\ Rabs (x * f - tint n x) <= 44 / 1000000000000 * A0).
  { destruct (Rle_lt_dec (x * x) n) as [L|L].
    - destruct (sf21_mid n x Hn Hx L (C1 L)) as (k & f & K & Q). exists k, f. split; [exact K|]. eapply Rle_trans; [exact Q|]. assert (tint n x <= A0) by lra. lra.
    - destruct (sf21_high n x g1 g2 Hn (C2 L) Hx L G1 G2) as (k & f & K & A' & EA & -> & Q). exists k, f. split; [exact K|]. fold A0 in Q, EA. eapply Rle_trans; [exact Q|]. assert (tup n x <= A0) by lra. lra. }
  destruct M as (k & f & K & Q). exists k, (1 / 2 + V * (x * f)). split; [intros fuel Hf; apply td_cdf_impl; auto|].
  replace (1 / 2 + V * (x * f) - (1 / 2 + N * tint n x)) with (V * (x * f - tint n x) + (V - N) * tint n x) by ring.
  eapply Rle_trans; [apply Rabs_triang|]. rewrite !Rabs_mult, (Rabs_pos_eq (tint n x)) by lra.
  assert (VB : Rabs V <= (1 + 12 / 1000000000000) * N). { replace V with (N + (V - N)) by ring. eapply Rle_trans; [apply Rabs_triang|]. rewrite (Rabs_pos_eq N) by lra. lra. }
  assert (B1 : Rabs V * Rabs (x * f - tint n x) <= (1 + 12 / 1000000000000) * N * (44 / 1000000000000 * A0)) by (apply Rmult_le_compat; (apply Rabs_pos || assumption)).
  assert (B2 : Rabs (V - N) * tint n x <= 12 / 1000000000000 * N * tint n x) by (apply Rmult_le_compat_r; lra).
  replace ((1 + 12 / 1000000000000) * N * (44 / 1000000000000 * A0)) with ((1 + 12 / 1000000000000) * (44 / 1000000000000) * (N * A0)) in B1 by ring. rewrite TH in B1. nra.
Qed.
Lemma tint_RInt n g1 g2 x : 0 < n -> RInt (fun t => g1 / (sqrt (n * PI) * g2) * Rpower (1 + t * t / n) (- ((n + 1) / 2))) 0 x = tnorm n g1 g2 * tint n x.
Proof.
  intros Hn. unfold tint, tnorm. apply (RInt_scal (tker n ((n + 1) / 2)) 0 x (g1 / (sqrt (n * PI) * g2))).
  apply (ex_RInt_continuous (V := R_CompleteNormedModule)). intros t _. now apply tker_cont.
Qed.
Lemma td_cdf_acc n d g1 g2 x : 0 < n -> td_new n = Ret d -> euler_gamma ((n + 1) / 2) g1 -> euler_gamma (n / 2) g2 ->
  (x * x <= n -> (n - 2) * (x * x) < 6 * (n + x * x)) -> (n < x * x -> forall j, n <> 2 * INR (S j)) ->
  exists k v, (forall fuel, (k <= fuel)%nat -> td_cdf (Sp := impl_special fuel) d x = Ret v) /\
  Rabs (v - (1 / 2 + RInt (fun t => g1 / (sqrt (n * PI) * g2) * Rpower (1 + t * t / n) (- ((n + 1) / 2))) 0 x)) <= 3 / 100000000000.
Proof.
  intros Hn E G1 G2 C1 C2. destruct (td_new_inv _ _ E) as [_ ->]. rewrite tint_RInt by assumption. destruct (Rtotal_order x 0) as [L|[->|L]].
  - destruct (td_cdf_acc_pos n g1 g2 (- x) Hn ltac:(lra) G1 G2) as (k & v & K & Q); [replace (- x * - x) with (x * x) by ring; assumption|replace (- x * - x) with (x * x) by ring; assumption|].
    exists k, (1 - v). split; [intros fuel Hf; replace x with (- - x) by ring; apply td_cdf_sym; now apply K|]. rewrite tint_odd in Q by assumption.
    replace (1 - v - (1 / 2 + tnorm n g1 g2 * tint n x)) with (- (v - (1 / 2 + tnorm n g1 g2 * - tint n x))) by field. now rewrite Rabs_Ropp.
  - destruct (tnorm_acc n g1 g2 Hn G1 G2) as (v1 & v2 & E1 & E2 & V1 & V2 & _). exists 1%nat, (1 / 2). split.
    + intros fuel Hf. rewrite (td_cdf_impl n 0 fuel 1 v1 v2); auto; [f_equal; ring|]. replace (- (0 * 0) / n) with 0 by (field; lra). rewrite sf21_small by lra. destruct fuel as [|fuel]; [lia|]. now rewrite f21_zero.
    + rewrite tint_0 by assumption. replace (1 / 2 - (1 / 2 + tnorm n g1 g2 * 0)) with 0 by ring. rewrite Rabs_R0. lra.
  - now apply td_cdf_acc_pos.
Qed.
(** Gauss's function F(1/2, k; 3/2; z) for -1 <= z < 0. *)
Lemma f21_half_acc k z : 1 / 2 < k -> -1 <= z < 0 -> (2 * k - 3) * - z < 6 * (1 - z) ->
  exists m v, (forall fuel, (m <= fuel)%nat -> sf21 fuel (1 / 2) k (3 / 2) z = Ret (Some v)) /\ Rabs (v - f21_half k z) <= 3 / 10000000000000000 * f21_half k z.
Proof.
  intros Hk Hz C. set (n := 2 * k - 1). assert (Hn : 0 < n) by (unfold n; lra). set (x := sqrt (n * - z)). assert (NZ : 0 < n * - z) by (apply Rmult_lt_0_compat; lra).
  assert (Hx : 0 < x) by (now apply sqrt_lt_R0). assert (XX : x * x = n * - z) by (apply sqrt_sqrt; lra).
  assert (EK : (n + 1) / 2 = k) by (unfold n; field). assert (EZ : - (x * x) / n = z) by (rewrite XX; field; lra).
  destruct (sf21_mid n x Hn Hx) as (m & v & K & A); [rewrite XX; nra|rewrite XX; unfold n in *; nra|]. exists m, v. rewrite EK, EZ in K. split; [exact K|].
  pose proof (f21_half_int n k x Hn) as F. rewrite EZ in F. unfold tint in A. rewrite EK, <- F in A.
  replace (x * v - x * f21_half k z) with (x * (v - f21_half k z)) in A by ring. rewrite Rabs_mult, (Rabs_pos_eq x) in A by lra.
  apply Rmult_le_reg_l with x; [exact Hx|]. lra.
Qed.
(** ** The entropy is wrong already for one degree of freedom *)
Lemma line_nonneg (f : R -> R) v : (forall x, 0 <= f x) -> integral_line f v -> 0 <= v.
Proof.
  intros Hf (F & l & D & L0 & L1).
  assert (M : forall x y, x <= y -> F x <= F y).
  { intros x y [H| ->]; [|lra]. destruct (MVT_gen F x y f) as [c [_ E]]; [intros; apply D|intros; apply continuity_pt_filterlim; apply (ex_derive_continuous F); eexists; apply D|].
    pose proof (Hf c). assert (0 <= f c * (y - x)) by (apply Rmult_le_pos; lra). lra. }
  assert (N : forall x, l <= F x).
  { intros x. apply (is_lim_le_loc F (fun _ => F x) m_infty l (F x)); [|exact L0|apply is_lim_const]. exists x. intros y Hy. apply M. lra. }
  assert (l <= l + v); [|lra]. apply (is_lim_le_loc (fun _ => l) F p_infty l (l + v)); [|apply is_lim_const|exact L1]. exists 0. intros y _. apply N.
Qed.
Lemma ln2_up : ln 2 < 7 / 10.
Proof.
  destruct (zexp_bounds 7 10 2013 2014 1000 20) as [L _]; [vm_compute; reflexivity|]. rewrite <- (ln_exp (7 / 10)). apply ln_increasing; lra.
Qed.
Lemma td_entropy_wrong (Sp : Special R) d e p : td_new 1 = Ret d -> x_gamma 1 = Ret 1 -> x_gamma (1 / 2) = Ret (sqrt PI) -> x_beta 1 (1 / 2) = Ret 2 ->
  td_entropy d = Ret e -> (forall x, td_pdf d x = Ret (p x)) -> ~ integral_line (fun x => - ln (p x) * p x) e.
Proof.
  intros E G1 G2 B Ee Hp H. destruct (td_new_inv _ _ E) as [_ ->].
  assert (EE : e = 1 - sqrt PI + ln 2).
  { revert Ee. unfold td_entropy. rewrite lit_half', lit_2. rb. cbn [td_n]. rops. replace ((1 + 1) / 2) with 1 by field. rewrite G1. cbn [bind]. rewrite G2. cbn [bind]. rewrite B. cbn [bind].
    intros K. apply Ret_inj in K. rewrite <- K. rops. rewrite sqrt_1. replace (1 * 2) with 2 by ring. ring. }
  assert (S : 17 / 10 < sqrt PI).
  { rewrite <- (sqrt_square (17 / 10)) by lra. apply sqrt_lt_1; [lra|pose proof PI_RGT_0; lra|]. pose proof PI2_3_2. lra. }
  pose proof ln2_up. apply line_nonneg in H; [lra|]. intros x. pose proof (td_cauchy x G1 G2) as C. rewrite Hp in C. apply Ret_inj in C. rewrite C.
  pose proof PI2_3_2. assert (P : 1 <= PI * (1 + x * x)).
  { assert (0 <= x * x) by nra. assert (0 <= PI * (x * x)) by (apply Rmult_le_pos; lra). lra. }
  rewrite ln_Rinv by lra. rewrite Ropp_involutive. apply Rmult_le_pos; [rewrite <- ln_1; apply ln_le; lra|left; apply Rinv_0_lt_compat; lra].
Qed.
