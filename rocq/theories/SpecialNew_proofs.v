(** Further lemmas on the special functions: independence of the fuel, partial sums, domains. *)
From Coq Require Import Arith Lia List Bool ZArith Reals Lra Psatz.
From Coquelicot Require Import Coquelicot.
From Verif Require Import Outcome Scalar RealOps Int_model Ode_model Special_model Stat_model.
From Verif Require Import Special_spec Stat_spec Combin_proofs Discrete_proofs OdeOrder_proofs Continuous_proofs Normal_proofs Special_proofs GammaTerm_proofs GammaFun_proofs StatExtra_proofs.
Local Open Scope R_scope.

Lemma rising_pos a n : 0 < a -> 0 < rising a n.
Proof.
  intro Ha. induction n; cbn [rising]; [lra|]. apply Rmult_lt_0_compat; [assumption|]. pose proof (pos_INR n). lra.
Qed.
Lemma gauss_term_S a b c z n : 0 < c ->
  gauss_term a b c z (S n) = gauss_term a b c z n * ((a + INR n) * (b + INR n) / (c + INR n)) * (z / (INR n + 1)).
Proof.
  intro Hc. unfold gauss_term. cbn [rising pow]. pose proof (rising_pos c n Hc). pose proof (pos_INR n).
  change (fact (S n)) with (S n * fact n)%nat. rewrite mult_INR, S_INR. pose proof (INR_fact_neq_0 n). field. repeat split; lra.
Qed.
(** The loop from the state after n terms. *)
Lemma f21_loop_partial a b c z : 0 < c -> forall k n v,
  f21_loop k a b c z (gauss_term a b c z n) (sum_f_R0 (gauss_term a b c z) n)
    (match n with O => 1 | S m => sum_f_R0 (gauss_term a b c z) m end) (INR n) = Some v ->
  exists N, (n <= N)%nat /\ v = sum_f_R0 (gauss_term a b c z) N /\
    Rabs (gauss_term a b c z N) / Rabs (match N with O => 1 | S m => sum_f_R0 (gauss_term a b c z) m end) <= f21_tol.
Proof.
  intro Hc. induction k as [|k IH]; intros n v; cbn [f21_loop]; rb; rops.
  - rcase; intro E; [discriminate|]. injection E as <-. exists n. repeat split; [lia|]. lra.
  - rcase; intro E.
    + destruct (IH (S n) v) as (N & HN & -> & Hb).
      * rewrite gauss_term_S by assumption. cbn [sum_f_R0]. rewrite gauss_term_S, S_INR by assumption. exact E.
      * exists N. repeat split; [lia|assumption].
    + injection E as <-. exists n. repeat split; [lia|]. lra.
Qed.

Lemma f21_norm_partial a b c z k v : 0 < c -> f21_norm k a b c z = Some v ->
  exists N, v = sum_f_R0 (gauss_term a b c z) N /\
    Rabs (gauss_term a b c z N) / Rabs (match N with O => 1 | S m => sum_f_R0 (gauss_term a b c z) m end) <= f21_tol.
Proof.
  intros Hc E. unfold f21_norm in E. cbn [zero one R_ops] in E.
  assert (T0 : gauss_term a b c z 0 = 1) by (unfold gauss_term; cbn; field).
  destruct (f21_loop_partial a b c z Hc k 0 v) as (N & _ & H); [|exists N; exact H].
  cbn [sum_f_R0 INR]. rewrite T0. exact E.
Qed.
Lemma gauss_term_nonneg a b c z n : 0 < a -> 0 < b -> 0 < c -> 0 <= z -> 0 <= gauss_term a b c z n.
Proof.
  intros Ha Hb Hc Hz. unfold gauss_term, Rdiv. pose proof (rising_pos a n Ha). pose proof (rising_pos b n Hb). pose proof (rising_pos c n Hc).
  repeat apply Rmult_le_pos; try lra; [left; now apply Rinv_0_lt_compat|now apply pow_le|left; apply Rinv_0_lt_compat, INR_fact_lt_0].
Qed.
Lemma gauss_term_half a b c z n : 0 < a <= 1 -> 0 < b <= c -> 0 <= z <= 1 / 2 ->
  gauss_term a b c z (S n) <= gauss_term a b c z n * (1 / 2).
Proof.
  intros Ha Hb Hz. rewrite gauss_term_S by lra. pose proof (pos_INR n) as Hn. rewrite Rmult_assoc.
  apply Rmult_le_compat_l; [apply gauss_term_nonneg; lra|].
  replace ((a + INR n) * (b + INR n) / (c + INR n) * (z / (INR n + 1))) with (((a + INR n) / (INR n + 1)) * ((b + INR n) / (c + INR n)) * z) by (field; lra).
  assert (H1 : 0 <= (a + INR n) / (INR n + 1) <= 1).
  { split; [apply Rdiv_le_0_compat; lra|]. apply (Rmult_le_reg_r (INR n + 1)); [lra|]. unfold Rdiv. rewrite Rmult_assoc, Rinv_l by lra. lra. }
  assert (H2 : 0 <= (b + INR n) / (c + INR n) <= 1).
  { split; [apply Rdiv_le_0_compat; lra|]. apply (Rmult_le_reg_r (c + INR n)); [lra|]. unfold Rdiv. rewrite Rmult_assoc, Rinv_l by lra. lra. }
  apply Rle_trans with (1 * 1 * z); [|lra]. apply Rmult_le_compat_r; [lra|]. apply Rmult_le_compat; lra.
Qed.
(** Comparison with a geometric series. *)
Lemma geom_tail (u : nat -> R) N r : 0 <= r < 1 -> (forall n, 0 <= u n) -> (forall n, (N <= n)%nat -> u (S n) <= u n * r) ->
  exists l, is_series u l /\ sum_f_R0 u N <= l <= sum_f_R0 u N + u N * (r / (1 - r)).
Proof.
  intros Hr P H.
  assert (G : forall n, u (N + n)%nat <= u N * r ^ n).
  { induction n; [rewrite Nat.add_0_r; cbn; lra|]. rewrite Nat.add_succ_r. eapply Rle_trans; [apply H; lia|].
    cbn [pow]. replace (u N * (r * r ^ n)) with (u N * r ^ n * r) by ring. apply Rmult_le_compat_r; lra. }
  assert (GS : is_series (fun n => u N * r * r ^ n) (u N * r * / (1 - r))).
  { apply (is_series_R_scal (fun n => r ^ n) (u N * r)). apply is_series_geom. rewrite Rabs_pos_eq; lra. }
  assert (B : forall n, 0 <= u (S N + n)%nat <= u N * r * r ^ n).
  { intro n. split; [apply P|]. replace (S N + n)%nat with (N + S n)%nat by lia. replace (u N * r * r ^ n) with (u N * r ^ S n) by (cbn; ring). apply G. }
  assert (ET : ex_series (fun n => u (S N + n)%nat)).
  { apply (ex_series_le (K := R_AbsRing) (V := R_CompleteNormedModule) (fun n => u (S N + n)%nat) (fun n => u N * r * r ^ n)).
    - intro n. unfold norm; cbn. unfold abs; cbn. rewrite Rabs_pos_eq by apply B. apply B.
    - now exists (u N * r * / (1 - r)). }
  assert (EU : ex_series u) by (apply (ex_series_incr_n u (S N)); exact ET).
  exists (Series u). split; [now apply Series_correct|].
  rewrite (Series_incr_n u (S N)) by (try lia; assumption). cbn [Init.Nat.pred].
  assert (T0 : 0 <= Series (fun k => u (S N + k)%nat)).
  { apply Rle_trans with (Series (fun _ => 0)); [|apply Series_le; [intro; split; [lra|apply B]|exact ET]].
    right. symmetry. apply is_series_unique. apply (is_series_ext (fun n => 0 * (1/2) ^ n)); [intro; apply Rmult_0_l|].
    apply (is_series_eq _ (0 * / (1 - 1 / 2)) 0); [ring|]. apply (is_series_R_scal (fun n => (1 / 2) ^ n) 0). apply is_series_geom. rewrite Rabs_pos_eq; lra. }
  assert (T1 : Series (fun k => u (S N + k)%nat) <= u N * r * / (1 - r)).
  { rewrite <- (is_series_unique _ _ GS). apply Series_le; [exact B|now exists (u N * r * / (1 - r))]. }
  split; [lra|]. unfold Rdiv. replace (u N * (r * / (1 - r))) with (u N * r * / (1 - r)) by ring. lra.
Qed.
Lemma sum_f_pos (u : nat -> R) : (forall n, 0 <= u n) -> u O = 1 -> forall n, 1 <= sum_f_R0 u n.
Proof. intros P U n. induction n; cbn; [lra|]. pose proof (P (S n)). lra. Qed.
(** Relative error of the truncated series. *)
Lemma f21_norm_accuracy a b c z k v : 0 < a <= 1 -> 0 < b <= c -> 0 <= z <= 1 / 2 -> f21_norm k a b c z = Some v ->
  exists F, is_series (gauss_term a b c z) F /\ v <= F <= v * (1 + 2 / 10000000000000000).
Proof.
  intros Ha Hb Hz E. destruct (f21_norm_partial a b c z k v ltac:(lra) E) as (N & -> & HN). rewrite f21_tol_R in HN.
  assert (P : forall n, 0 <= gauss_term a b c z n) by (intro; apply gauss_term_nonneg; lra).
  assert (T0 : gauss_term a b c z 0 = 1) by (unfold gauss_term; cbn; field).
  destruct (geom_tail (gauss_term a b c z) N (1 / 2)) as (F & HF & L & U); [lra|exact P|intros; now apply gauss_term_half|].
  exists F. split; [exact HF|]. split; [exact L|].
  replace (1 / 2 / (1 - 1 / 2)) with 1 in U by field. rewrite Rabs_pos_eq in HN by apply P.
  set (m := match N with O => 1 | S m => sum_f_R0 (gauss_term a b c z) m end) in *.
  assert (M : 1 <= m <= sum_f_R0 (gauss_term a b c z) N).
  { unfold m. destruct N as [|N]; [cbn; lra|]. split; [now apply sum_f_pos|]. cbn [sum_f_R0]. pose proof (P (S N)). lra. }
  rewrite Rabs_pos_eq in HN by lra. apply (Rmult_le_compat_r m) in HN; [|lra].
  unfold Rdiv at 1 in HN. rewrite Rmult_assoc, Rinv_l in HN by lra. lra.
Qed.
(** The loop may stop at a negligible term that is followed by a large one. *)
Lemma f21_early : exists a b c z v, 0 < a /\ 0 < b /\ 0 < c /\ 0 <= z <= 1 / 2 /\ f21_norm 1 a b c z = Some v /\ v < 2 /\
  1000 < gauss_term a b c z 2.
Proof.
  exists (/ 10 ^ 60), (10 ^ 40), 1, (1 / 2). eexists. split; [apply Rinv_0_lt_compat, pow_lt; lra|]. split; [apply pow_lt; lra|].
  split; [lra|]. split; [lra|]. split; [|split].
  - unfold f21_norm; cbn [f21_loop]. rb. rops. rewrite f21_tol_R. rcase; [|rewrite Rabs_R1 in *; lra]. rcase; [|reflexivity].
    exfalso. rewrite Rabs_R1 in *. rewrite Rabs_pos_eq in * by lra. lra.
  - cbn. lra.
  - unfold gauss_term. cbn. lra.
Qed.

(** ** The power series of the lower incomplete gamma function *)
Lemma lgt_S a x n : 0 < a -> lower_gamma_term a x (S n) = lower_gamma_term a x n * (x / (a + INR n + 1)).
Proof.
  intro Ha. unfold lower_gamma_term. cbn [rising pow]. pose proof (rising_pos (a + 1) n ltac:(lra)). pose proof (pos_INR n). field. split; lra.
Qed.
Lemma lgt_pos a x n : 0 < a -> 0 < x -> 0 < lower_gamma_term a x n.
Proof. intros Ha Hx. unfold lower_gamma_term. apply Rdiv_lt_0_compat; [now apply pow_lt|apply rising_pos; lra]. Qed.
Lemma lr_series_partial a x : 0 < a -> forall k n v,
  lr_series k x (a + INR n) (lower_gamma_term a x n) (sum_f_R0 (lower_gamma_term a x) n) = Some v ->
  exists N, (1 <= N)%nat /\ v = sum_f_R0 (lower_gamma_term a x) N /\ lower_gamma_term a x N / v <= lr_eps.
Proof.
  intro Ha. induction k as [|k IH]; intros n v; cbn [lr_series]; [discriminate|]. rb; rops.
  assert (E1 : lower_gamma_term a x n * (x / (a + INR n + 1)) = lower_gamma_term a x (S n)) by (now rewrite lgt_S).
  assert (E2 : a + INR n + 1 = a + INR (S n)) by (rewrite S_INR; ring).
  rewrite E1, E2. change (sum_f_R0 (lower_gamma_term a x) n + lower_gamma_term a x (S n)) with (sum_f_R0 (lower_gamma_term a x) (S n)).
  rcase; intro E; [|now apply IH in E]. injection E as <-. exists (S n). repeat split; [lia|assumption].
Qed.
Lemma lr_series_sum a x k v : 0 < a -> lr_series k x a 1 1 = Some v ->
  exists N, (1 <= N)%nat /\ v = sum_f_R0 (lower_gamma_term a x) N /\ lower_gamma_term a x N / v <= lr_eps.
Proof.
  intros Ha E. apply (lr_series_partial a x Ha k 0). cbn [INR sum_f_R0].
  assert (T0 : lower_gamma_term a x 0 = 1) by (unfold lower_gamma_term; cbn; field). rewrite T0, Rplus_0_r. exact E.
Qed.
Lemma lgt_tail a x N : 0 < a -> 0 < x -> (1 <= N)%nat -> x <= 1 \/ x <= a ->
  exists S, is_series (lower_gamma_term a x) S /\
    sum_f_R0 (lower_gamma_term a x) N <= S <= sum_f_R0 (lower_gamma_term a x) N + lower_gamma_term a x N * Rmax 1 x.
Proof.
  intros Ha Hx HN Hxa. pose proof (pos_INR N) as HN0. assert (HN1 : 1 <= INR N) by (apply (le_INR 1); lia).
  set (r := x / (a + INR N + 1)). assert (Hr : 0 <= r < 1).
  { unfold r. split; [apply Rdiv_le_0_compat; lra|]. apply (Rmult_lt_reg_r (a + INR N + 1)); [lra|]. unfold Rdiv. rewrite Rmult_assoc, Rinv_l by lra. destruct Hxa; lra. }
  destruct (geom_tail (lower_gamma_term a x) N r Hr) as (S & HS & L & U).
  - intro n. left. now apply lgt_pos.
  - intros n Hn. rewrite lgt_S by assumption. apply Rmult_le_compat_l; [left; now apply lgt_pos|].
    unfold r. apply Rmult_le_compat_l; [lra|]. apply le_INR in Hn. apply Rinv_le_contravar; lra.
  - exists S. split; [assumption|]. split; [assumption|]. eapply Rle_trans; [apply U|]. apply Rplus_le_compat_l.
    apply Rmult_le_compat_l; [left; now apply lgt_pos|].
    replace (r / (1 - r)) with (x / (a + INR N + 1 - x)) by (unfold r; field; split; [destruct Hxa; lra|]; lra).
    apply (Rmult_le_reg_r (a + INR N + 1 - x)); [destruct Hxa; lra|]. unfold Rdiv. rewrite Rmult_assoc, Rinv_l by (destruct Hxa; lra). rewrite Rmult_1_r.
    destruct Hxa as [H|H].
    + apply Rle_trans with (1 * (a + INR N + 1 - x)); [lra|]. apply Rmult_le_compat_r; [lra|apply Rmax_l].
    + apply Rle_trans with (x * (a + INR N + 1 - x)); [|apply Rmult_le_compat_r; [lra|apply Rmax_r]].
      replace x with (x * 1) at 1 by ring. apply Rmult_le_compat_l; lra.
Qed.
(** The coefficients and their differential equation. *)
Definition lgc (a : R) (n : nat) : R := / rising (a + 1) n.
Lemma lgc_S a n : 0 < a -> lgc a (S n) * (a + INR n + 1) = lgc a n.
Proof. intro Ha. unfold lgc. cbn [rising]. pose proof (rising_pos (a + 1) n ltac:(lra)). pose proof (pos_INR n). field. split; lra. Qed.
Lemma lgc_radius a : 0 < a -> CV_radius (lgc a) = p_infty.
Proof.
  intro Ha. apply CV_radius_infinite_DAlembert.
  - intro n. unfold lgc. apply Rgt_not_eq, Rinv_0_lt_compat, rising_pos. lra.
  - apply (is_lim_seq_ext (fun n => / (a + INR n + 1))).
    + intro n. pose proof (pos_INR n). assert (E : lgc a (S n) / lgc a n = / (a + INR n + 1)).
      { rewrite <- (lgc_S a n Ha). assert (lgc a (S n) <> 0) by (unfold lgc; apply Rgt_not_eq, Rinv_0_lt_compat, rising_pos; lra). field. split; lra. }
      rewrite E. symmetry. apply Rabs_pos_eq. left. apply Rinv_0_lt_compat. lra.
    + replace (Finite 0) with (Rbar_inv p_infty) by reflexivity. apply is_lim_seq_inv; [|discriminate].
      apply (is_lim_seq_ext (fun n => INR n + (a + 1))); [intro; ring|].
      apply (is_lim_seq_plus INR (fun _ => a + 1) p_infty (a + 1)); [apply is_lim_seq_INR|apply is_lim_seq_const|reflexivity].
Qed.
Lemma lgc_ode a x : 0 < a -> x * PSeries (PS_derive (lgc a)) x = a + (x - a) * PSeries (lgc a) x.
Proof.
  intro Ha. assert (R0 : Rbar_lt (Rabs x) (CV_radius (lgc a))) by (now rewrite lgc_radius).
  assert (R1 : Rbar_lt (Rabs x) (CV_radius (PS_derive (lgc a)))) by (rewrite CV_radius_derive, lgc_radius by assumption; exact I).
  rewrite <- PSeries_incr_1.
  assert (E : PSeries (PS_incr_1 (PS_derive (lgc a))) x = PSeries (PS_plus (PS_incr_1 (lgc a)) (PS_plus (PS_scal (- a) (lgc a)) (fun n => match n with O => a | _ => 0 end))) x).
  { apply PSeries_ext. intros [|n]; unfold PS_incr_1, PS_derive, PS_plus, PS_scal; cbn -[INR].
    - unfold plus, scal, zero, mult; cbn. unfold lgc; cbn. match goal with |- ?u = ?v => change (@eq R u v) end. unfold mult; cbn. field.
    - unfold plus, scal, mult; cbn -[INR]. match goal with |- ?u = ?v => change (@eq R u v) end. unfold mult; cbn -[INR].
      pose proof (lgc_S a n Ha) as L. rewrite S_INR. rewrite <- L. ring. }
  rewrite E. assert (EX : forall b, ex_pseries (lgc a) b) by (intro b; apply CV_radius_inside; now rewrite lgc_radius).
  assert (ED : is_pseries (fun n => match n with O => a | _ => 0 end) x a).
  { apply (is_pseries_ext (fun n => if Nat.eqb n 0 then a else 0)); [intros [|n]; reflexivity|].
    apply is_pseries_R. apply (filterlim_ext_loc (fun _ => a)); [|apply filterlim_const].
    exists O. intros n _. induction n; [rewrite sum_O; cbn; ring|]. rewrite sum_Sn, <- IHn. cbn. unfold plus; cbn. ring. }
  rewrite PSeries_plus.
  - rewrite PSeries_incr_1, PSeries_plus, PSeries_scal.
    + rewrite (is_pseries_unique _ _ _ ED). ring.
    + apply (ex_pseries_scal (K := R_AbsRing) (V := R_NormedModule)); [apply Rmult_comm|apply EX].
    + exists a. exact ED.
  - apply ex_pseries_incr_1, EX.
  - apply ex_pseries_plus; [apply (ex_pseries_scal (K := R_AbsRing) (V := R_NormedModule)); [apply Rmult_comm|apply EX]|]. exists a. exact ED.
Qed.
Lemma lg_derive a x : 0 < a -> 0 < x ->
  is_derive (fun y => Rpower y a * exp (- y) * (PSeries (lgc a) y / a)) x (Rpower x (a - 1) * exp (- x)).
Proof.
  intros Ha Hx. assert (R0 : Rbar_lt (Rabs x) (CV_radius (lgc a))) by (now rewrite lgc_radius).
  pose proof (lgc_ode a x Ha) as O. pose proof (is_derive_PSeries (lgc a) x R0) as DP.
  replace (Rpower x (a - 1) * exp (- x)) with
    (((a * (Rpower x (a - 1) * exp (- x)) - Rpower x a * exp (- x)) * (PSeries (lgc a) x / a))
     + (Rpower x a * exp (- x)) * (PSeries (PS_derive (lgc a)) x / a)).
  - apply (is_derive_mult (fun y => Rpower y a * exp (- y)) (fun y => PSeries (lgc a) y / a)).
    + now apply gterm_derive.
    + unfold Rdiv. apply (is_derive_ext (fun y => / a * PSeries (lgc a) y)); [intro; apply Rmult_comm|].
      rewrite (Rmult_comm _ (/ a)). now apply (is_derive_scal (PSeries (lgc a)) x (/ a)).
    + intros; apply Rmult_comm.
  - assert (X : Rpower x a = x * Rpower x (a - 1)).
    { rewrite <- (Rpower_1 x) at 2 by assumption. rewrite <- Rpower_plus. f_equal. ring. }
    rewrite X. replace (x * Rpower x (a - 1) * exp (- x) * (PSeries (PS_derive (lgc a)) x / a)) with
      (Rpower x (a - 1) * exp (- x) * (x * PSeries (PS_derive (lgc a)) x / a)) by (field; lra).
    rewrite O. field. lra.
Qed.
Lemma glr_series a g F x : 0 < a -> 0 < x -> is_glr a g F -> F x = Rpower x a * exp (- x) / (a * g) * PSeries (lgc a) x.
Proof.
  intros Ha Hx (Hg & D & F0 & _).
  pose proof (antider_unique (fun y => g * F y) (fun y => Rpower y a * exp (- y) * (PSeries (lgc a) y / a))
    (fun y => Rpower y (a - 1) * exp (- y))) as U.
  assert (E : g * F x = Rpower x a * exp (- x) * (PSeries (lgc a) x / a)); [|apply (Rmult_eq_reg_l g); [rewrite E; field; lra|lra]].
  apply U; [| | | |assumption].
  - intros y Hy. replace (Rpower y (a - 1) * exp (- y)) with (g * (Rpower y (a - 1) * exp (- y) / g)) by (field; lra).
    apply (is_derive_scal F y g). now apply D.
  - intros y Hy. now apply lg_derive.
  - apply (filterlim_Rmult (fun _ => g) F g 0 0); [apply filterlim_const|assumption|ring].
  - apply (filterlim_Rmult (fun y => Rpower y a * exp (- y)) (fun y => PSeries (lgc a) y / a) 0 (PSeries (lgc a) 0 / a) 0); [now apply gterm_lim_0| |ring].
    apply cont_right; [|reflexivity]. unfold Rdiv. apply (continuous_mult (PSeries (lgc a)) (fun _ => / a)); [|apply continuous_const].
    apply (ex_derive_continuous (PSeries (lgc a))). exists (PSeries (PS_derive (lgc a)) 0). apply is_derive_PSeries. now rewrite lgc_radius.
Qed.
Lemma lgt_pseries a x S : is_series (lower_gamma_term a x) S -> PSeries (lgc a) x = S.
Proof.
  intro H. apply is_pseries_unique. apply is_pseries_R. apply (is_series_ext (lower_gamma_term a x)); [|exact H].
  intro n. unfold lower_gamma_term, lgc. apply Rmult_comm.
Qed.
(** The series branch of [gamma_lr]: exact up to the accuracy of [ln_gamma] and the truncation. *)
Lemma sgamma_lr_accuracy k a x v g F : 0 < a -> 0 < x -> x <= 1 \/ x <= a ->
  - (70978271289338399 / 100000000000000) <= a * ln x - x - sln_gamma a ->
  is_glr a g F -> sgamma_lr k a x = Ret (Some v) ->
  v <= F x * (g / exp (sln_gamma a)) <= v * (1 + / 1000000000000000 * Rmax 1 x).
Proof.
  intros Ha Hx Hxa Hax HF E. pose proof (exp_pos (sln_gamma a)) as EL. assert (Hg : 0 < g) by apply HF.
  unfold sgamma_lr in E. revert E. rb. rops. rewrite lit_R. repeat (rcase; try lra); try (destruct Hxa; lra).
  all: destruct (lr_series k x a 1 1) as [w|] eqn:Es; intro E; [|discriminate]; injection E as <-;
    destruct (lr_series_sum a x k w Ha Es) as (N & HN & -> & Hlast);
    destruct (lgt_tail a x N Ha Hx HN Hxa) as (S & HS & L & U); rewrite lr_eps_R in Hlast;
    rewrite (glr_series a g F x Ha Hx HF), (lgt_pseries a x S HS);
    set (w := sum_f_R0 (lower_gamma_term a x) N) in *;
    assert (W : 0 < w) by (apply Rlt_le_trans with 1; [lra|apply sum_f_pos; [intro; left; now apply lgt_pos|unfold lower_gamma_term; cbn; field]]);
    assert (X : exp (a * ln x - x - sln_gamma a) = Rpower x a * exp (- x) / exp (sln_gamma a))
      by (unfold Rminus, Rdiv, Rpower; rewrite !exp_plus, (exp_Ropp (sln_gamma a)); reflexivity);
    rewrite X; pose proof (exp_pos (a * ln x)) as E1; pose proof (exp_pos (- x)) as E2; fold (Rpower x a) in E1;
    set (K := Rpower x a * exp (- x) / exp (sln_gamma a) / a);
    assert (HK : 0 < K) by (unfold K; apply Rdiv_lt_0_compat; [apply Rdiv_lt_0_compat; [now apply Rmult_lt_0_compat|assumption]|assumption]);
    replace (Rpower x a * exp (- x) / exp (sln_gamma a) * w / a) with (K * w) by (unfold K; field; lra);
    replace (Rpower x a * exp (- x) / (a * g) * S * (g / exp (sln_gamma a))) with (K * S) by (unfold K; field; lra);
    (split; [apply Rmult_le_compat_l; lra|]); rewrite Rmult_assoc; (apply Rmult_le_compat_l; [lra|]);
    (apply Rle_trans with (1 := U)); apply (Rmult_le_compat_r w) in Hlast; [|lra]; unfold Rdiv in Hlast;
    rewrite Rmult_assoc, Rinv_l in Hlast by lra; pose proof (Rmax_l 1 x) as M;
    apply Rle_trans with (w + (1 * / 1000000000000000 * w) * Rmax 1 x); [apply Rplus_le_compat_l, Rmult_le_compat_r; lra|lra].
Qed.

(** ** Independence of the fuel, domains *)
Lemma serf_fuel k m (x v : R) : serf k x = Ret (Some v) -> serf (k + m) x = Ret (Some v).
Proof.
  unfold serf, sgamma_u, sgamma_ur. rb. rops. repeat (rcase; try contradiction); [auto|].
  destruct (sgamma_lr k (lit 1 2) (x * x)) as [[w|]|] eqn:L; cbn [obind]; try discriminate.
  rewrite (sgamma_lr_fuel k m _ _ _ L). cbn [obind]. auto.
Qed.
Lemma serf_limit (x : R) : exists v N, forall k, (N <= k)%nat -> serf k x = Ret (Some v).
Proof.
  destruct (serf_total x) as (N & v & E). exists v, N. intros k Hk. replace k with (N + (k - N))%nat by lia. now apply serf_fuel.
Qed.
Lemma sgamma_lr_limit (a x : R) : 0 < a -> 0 < x -> exists v N, forall k, (N <= k)%nat -> sgamma_lr k a x = Ret (Some v).
Proof.
  intros Ha Hx. destruct (sgamma_lr_term a x Ha Hx) as (N & v & E). exists v, N. intros k Hk.
  replace k with (N + (k - N))%nat by lia. now apply sgamma_lr_fuel.
Qed.
Lemma sdigamma_limit (x : R) : exists v N, forall k, (N <= k)%nat -> sdigamma k x = Some v.
Proof.
  destruct (sdigamma_term x) as (N & v & E). exists v, N. intros k Hk. replace k with (N + (k - N))%nat by lia. now apply sdigamma_fuel.
Qed.
Lemma serf_le_1 k x v : 1 < x -> serf k x = Ret (Some v) -> v <= 1.
Proof.
  intros Hx. unfold serf, sgamma_u, sgamma_ur. rb. rops. rcase; [lra|].
  destruct (sgamma_lr k (lit 1 2) (x * x)) as [[w|]|] eqn:L; cbn [obind]; try discriminate.
  rewrite lit_half' in *. assert (W : w <= 1) by (apply (sgamma_lr_lt1 k (1 / 2) (x * x)); [lra|nra|nra|assumption]).
  rewrite (sgamma_ge (1 / 2)) by lra. cbn [olift obind]. intro E. apply Ret_inj in E.
  apply (f_equal (fun o => match o with Some u => u | None => 0 end)) in E. cbv beta iota in E. subst v.
  assert (FS : fsign x = 1) by (unfold fsign; rb; rops; rcase; [reflexivity|lra]). rewrite FS.
  pose proof (lanczos_pos (1 / 2) ltac:(lra)) as P. pose proof (sqrt_lt_R0 PI PI_RGT_0) as SP.
  assert (0 <= (1 - w) * lanczos (1 / 2) / sqrt PI) by (apply Rdiv_le_0_compat; [apply Rmult_le_pos; lra|assumption]). lra.
Qed.
Lemma sgamma_lr_panic k a x : x <= 0 -> sgamma_lr k a x = Panic.
Proof. intro H. unfold sgamma_lr. rb. rops. unfold R_leb at 1. destruct (Rle_dec x 0); [reflexivity|lra]. Qed.
Lemma sbeta_inc_reg_panic k x a b : a <= 0 \/ b <= 0 \/ x < 0 \/ 1 < x -> sbeta_inc_reg k x a b = Panic.
Proof.
  intro H. unfold sbeta_inc_reg. rb. rops. unfold R_leb at 1 2. destruct (Rle_dec a 0), (Rle_dec b 0); cbn [orb]; try reflexivity.
  unfold R_ltb at 1 2. destruct (Rlt_dec x 0), (Rlt_dec 1 x); cbn [orb]; try reflexivity. lra.
Qed.
Lemma sbeta_inc_reg_ends k a b : 0 < a -> 0 < b -> sbeta_inc_reg k 0 a b = Ret (Some 0) /\ sbeta_inc_reg k 1 a b = Ret (Some 1).
Proof.
  intros Ha Hb. unfold sbeta_inc_reg. rb. rops. unfold R_leb at 1 2 3 4. destruct (Rle_dec a 0), (Rle_dec b 0); cbn [orb]; try lra.
  unfold R_ltb at 1 2 5 6. destruct (Rlt_dec 0 0), (Rlt_dec 1 0), (Rlt_dec 1 1); cbn [orb]; try lra.
  all: unfold R_eqb; destruct (Req_EM_T 0 0), (Req_EM_T 1 1); try lra; rewrite ?orb_true_r; cbn [orb]; split; reflexivity.
Qed.
Lemma sf21_panic k a b c z : a <= 0 \/ b <= 0 \/ c <= 0 \/ 1 < z -> sf21 k a b c z = Panic.
Proof.
  intro H. unfold sf21. rb. rops. unfold R_leb at 1 2 3. unfold R_ltb at 1.
  destruct (Rle_dec a 0), (Rle_dec b 0), (Rle_dec c 0), (Rlt_dec 1 z); cbn [orb]; try reflexivity. lra.
Qed.
Lemma sf21_small_sym k a b c z : 0 < a -> 0 < b -> 0 < c -> 0 <= z <= 1 / 2 -> sf21 k a b c z = sf21 k b a c z.
Proof.
  intros. rewrite !sf21_small by assumption. f_equal. apply f21_loop_sym.
Qed.
(** Gauss's theorem branch, z = 1 *)
Lemma sf21_one k a b c : 0 < a -> 0 < b -> 0 < c -> a + b < c ->
  exists v, sf21 k a b c 1 = Ret (Some v) /\ 0 < v /\ sf21 k b a c 1 = Ret (Some v).
Proof.
  intros Ha Hb Hc H. destruct (sgamma_pos c Hc) as (g1 & E1 & P1). destruct (sgamma_pos (c - a - b) ltac:(lra)) as (g2 & E2 & P2).
  destruct (sgamma_pos (c - a) ltac:(lra)) as (g3 & E3 & P3). destruct (sgamma_pos (c - b) ltac:(lra)) as (g4 & E4 & P4).
  exists (g1 * g2 / (g3 * g4)). split; [|split].
  - unfold sf21. rewrite lit_half'. rb. rops. repeat (rcase; try lra). rewrite E1, E2, E3, E4. reflexivity.
  - apply Rdiv_lt_0_compat; apply Rmult_lt_0_compat; assumption.
  - unfold sf21. rewrite lit_half'. rb. rops. repeat (rcase; try lra). replace (c - b - a) with (c - a - b) by ring. rewrite E1, E2, E3, E4.
    cbn [bind olift]. do 3 f_equal. field.
Qed.

(** At z = 1 with c < a + b the series diverges; the code answers a number. *)
Lemma gauss_term_2111 n : gauss_term 2 1 1 1 n = INR n + 1.
Proof.
  induction n as [|n IH]; [unfold gauss_term; cbn; field|]. rewrite gauss_term_S, IH, S_INR by lra. pose proof (pos_INR n). field. lra.
Qed.
Lemma f21_divergent k : (exists v, sf21 k 2 1 1 1 = Ret (Some v)) /\ ~ ex_series (gauss_term 2 1 1 1).
Proof.
  split.
  - destruct (sgamma_pos 1 ltac:(lra)) as (g1 & E1 & P1). destruct (sgamma_pos 2 ltac:(lra)) as (g2 & E2 & P2).
    eexists. unfold sf21. rewrite lit_half'. rb. rops. repeat (rcase; try lra). replace (2 + 1 - 1) with 2 by ring. rewrite E1, E2. reflexivity.
  - intro H. apply (ex_series_lim_0 (gauss_term 2 1 1 1)) in H.
    assert (L : is_lim_seq (gauss_term 2 1 1 1) p_infty).
    { apply (is_lim_seq_ext (fun n => INR n + 1)); [intro; symmetry; apply gauss_term_2111|].
      apply (is_lim_seq_plus INR (fun _ => 1) p_infty 1); [apply is_lim_seq_INR|apply is_lim_seq_const|reflexivity]. }
    apply is_lim_seq_unique in H. apply is_lim_seq_unique in L. rewrite H in L. discriminate.
Qed.
