(** Euler's beta integral: existence, B(p,q) = Gamma(p) Gamma(q) / Gamma(p+q), and the accuracy of the
    crate's beta functions against it. *)
From Coq Require Import Arith Lia List Bool ZArith Reals Lra Psatz.
From Coquelicot Require Import Coquelicot.
From Verif Require Import Outcome Scalar RealOps Elem_model Int_model Ode_model Special_model.
From Verif Require Import Stat_spec Special_spec Gauss_proofs Discrete_proofs OdeOrder_proofs Continuous_proofs Normal_proofs Special_proofs GammaTerm_proofs GammaFun_proofs GammaDist_proofs StatExtra_proofs SpecialNew_proofs.
From Verif Require Import Stirling_proofs GammaAll_proofs Soper_proofs.
Local Open Scope R_scope.

Lemma near_left (P : R -> Prop) d : 0 < d -> (forall y, 1 - d < y < 1 -> P y) -> at_left 1 P.
Proof.
  intros Hd H. exists (mkposreal d Hd). intros y Hy Hl. apply H. unfold ball in Hy; cbn in Hy.
  unfold AbsRing_ball, abs, minus, plus, opp in Hy; cbn in Hy. apply Rabs_def2 in Hy. cbn in Hy. lra.
Qed.
Lemma near_right (P : R -> Prop) d : 0 < d -> (forall y, 0 < y < d -> P y) -> at_right 0 P.
Proof.
  intros Hd H. exists (mkposreal d Hd). intros y Hy Hl. apply H. unfold ball in Hy; cbn in Hy.
  unfold AbsRing_ball, abs, minus, plus, opp in Hy; cbn in Hy. apply Rabs_def2 in Hy. cbn in Hy. lra.
Qed.
Lemma mono_01 (F f : R -> R) : (forall x, 0 < x < 1 -> is_derive F x (f x)) -> (forall x, 0 < x < 1 -> 0 <= f x) ->
  forall x y, 0 < x -> x <= y -> y < 1 -> F x <= F y.
Proof.
  intros D P x y Hx Hxy Hy. destruct (Req_dec x y) as [->|N]; [lra|].
  destruct (MVT_gen F x y f) as [c [Hc E]].
  - intros t Ht. rewrite Rmin_left, Rmax_right in Ht by lra. apply D. lra.
  - intros t Ht. rewrite Rmin_left, Rmax_right in Ht by lra. apply continuity_pt_filterlim. apply (ex_derive_continuous F). eexists. apply D. lra.
  - rewrite Rmin_left, Rmax_right in Hc by lra. assert (0 <= f c * (y - x)) by (apply Rmult_le_pos; [apply P; lra|lra]). lra.
Qed.
Lemma integral_01_nonneg f v : (forall x, 0 < x < 1 -> 0 <= f x) -> integral_01 f v -> 0 <= v.
Proof.
  intros P [F [D [F0 F1]]]. pose proof (mono_01 F f D P) as M.
  assert (A : 0 <= F (1 / 2)).
  { assert (Q : Rbar_le 0 (F (1 / 2))); [|exact Q].
    apply (filterlim_le (F := at_right 0) F (fun _ => F (1 / 2)) 0 (F (1 / 2))); [|exact F0|apply filterlim_const].
    apply (near_right _ (1 / 2)); [lra|]. intros y Hy. apply M; lra. }
  assert (B : Rbar_le (F (1 / 2)) v).
  { apply (filterlim_le (F := at_left 1) (fun _ => F (1 / 2)) F (F (1 / 2)) v); [|apply filterlim_const|exact F1].
    apply (near_left _ (1 / 2)); [lra|]. intros y Hy. apply M; lra. }
  cbn in B. lra.
Qed.
Lemma integral_01_lin2 f g v w a b : integral_01 f v -> integral_01 g w -> integral_01 (fun x => a * f x + b * g x) (a * v + b * w).
Proof. intros Hf Hg. apply integral_01_lin; [now apply integral_01_scal|assumption]. Qed.
Lemma integral_01_le f g v w : (forall x, 0 < x < 1 -> f x <= g x) -> integral_01 f v -> integral_01 g w -> v <= w.
Proof.
  intros H Hf Hg. pose proof (integral_01_lin2 f g v w (-1) 1 Hf Hg) as L. apply integral_01_nonneg in L; [lra|]. intros x Hx. specialize (H x Hx). lra.
Qed.
Lemma euler_beta_unique p q b c : euler_beta p q b -> euler_beta p q c -> b = c.
Proof. intros Hb Hc. apply Rle_antisym; eapply integral_01_le; eauto; intros; apply Rle_refl. Qed.

(** ** Existence *)
Lemma left_mono_lim (F : R -> R) M : (forall x y, 1 / 2 <= x -> x <= y -> y < 1 -> F x <= F y) -> (forall x, 1 / 2 <= x < 1 -> F x <= M) ->
  exists l : R, filterlim F (at_left 1) (locally l).
Proof.
  intros Mo B. assert (Z : forall y, 2 <= y -> 1 / 2 <= 1 - / y < 1).
  { intros y Hy. pose proof (Rinv_0_lt_compat y ltac:(lra)). assert (/ y <= / 2) by (apply Rinv_le_contravar; lra). lra. }
  destruct (mono_lim (fun y => F (1 - / y)) 2 M) as [l Hl].
  - intros x y Hx Hy. pose proof (Z x Hx). pose proof (Z y ltac:(lra)). assert (/ y <= / x) by (apply Rinv_le_contravar; lra). apply Mo; lra.
  - intros x Hx. apply B, Z, Hx.
  - exists l. apply is_lim_spec in Hl. intros P [e He]. destruct (Hl e) as [T HT].
    set (d := / (Rmax T 2 + 1)). assert (D : 0 < d) by (apply Rinv_0_lt_compat; pose proof (Rmax_r T 2); lra).
    apply (near_left _ d D). intros y Hy. apply He. replace y with (1 - / / (1 - y)) by (field; lra).
    assert (T < / (1 - y)).
    { pose proof (Rmax_l T 2). apply Rlt_trans with (/ d); [unfold d; rewrite Rinv_inv; lra|]. apply Rinv_lt_contravar; [|lra]. apply Rmult_lt_0_compat; lra. }
    unfold ball; cbn. unfold AbsRing_ball, abs, minus, plus, opp; cbn. apply (HT (/ (1 - y))). assumption.
Qed.
Lemma beta_exists p q : 0 < p -> 0 < q -> exists b, euler_beta p q b.
Proof.
  intros Hp Hq. destruct (inc_beta_exists p q Hp) as [F [D F0]].
  assert (P : forall x, 0 < x < 1 -> 0 <= Rpower x (p - 1) * Rpower (1 - x) (q - 1)) by (intros; left; apply Rmult_lt_0_compat; apply exp_pos).
  pose proof (mono_01 F _ D P) as Mo. set (C := Rmax 1 (Rpower (1 / 2) (p - 1))).
  assert (CB : forall x, 1 / 2 <= x < 1 -> Rpower x (p - 1) <= C).
  { intros x Hx. unfold C. destruct (Rle_dec 1 p) as [H|H].
    - apply Rle_trans with 1; [|apply Rmax_l]. rewrite <- (Rpower_O x) at 2 by lra. unfold Rpower.
      assert (ln x <= 0) by (rewrite <- ln_1; destruct (Req_dec x 1) as [->|]; [lra|left; apply ln_increasing; lra]).
      assert ((p - 1) * ln x <= 0 * ln x) by nra. destruct H1; [left; now apply exp_increasing|right; now f_equal].
    - apply Rle_trans with (Rpower (1 / 2) (p - 1)); [|apply Rmax_r]. unfold Rpower.
      assert (ln (1 / 2) <= ln x) by (destruct (Req_dec (1 / 2) x) as [->|]; [lra|left; apply ln_increasing; lra]).
      assert (E : (p - 1) * ln x <= (p - 1) * ln (1 / 2)) by nra. destruct E; [left; now apply exp_increasing|right; now f_equal]. }
  assert (C1 : 1 <= C) by apply Rmax_l.
  assert (DQ : forall x, 0 < x < 1 -> is_derive (fun t => - (C / q * Rpower (1 - t) q)) x (C * Rpower (1 - x) (q - 1))).
  { intros x Hx. unfold Rpower. auto_derive; [lra|]. match goal with |- ?a = ?b => change (@eq R a b) end.
    assert (E2 : exp (q * ln (1 + - x)) = (1 - x) * exp ((q - 1) * ln (1 - x))) by (replace (1 + - x) with (1 - x) by ring; apply (Rpower_pred (1 - x) q); lra).
    rewrite E2. replace (1 + - x) with (1 - x) by ring. field. lra. }
  destruct (left_mono_lim F (F (1 / 2) + C / q * Rpower (1 - 1 / 2) q)) as [l Hl].
  - intros x y Hx Hxy Hy. apply Mo; lra.
  - intros x Hx. destruct (Req_dec x (1 / 2)) as [->|N]; [assert (0 < C / q * Rpower (1 - 1 / 2) q) by (apply Rmult_lt_0_compat; [apply Rdiv_lt_0_compat; lra|apply exp_pos]); lra|].
    destruct (MVT_gen (fun t => F t - - (C / q * Rpower (1 - t) q)) (1 / 2) x (fun t => Rpower t (p - 1) * Rpower (1 - t) (q - 1) - C * Rpower (1 - t) (q - 1))) as [c [Hc E]].
    + intros t Ht. rewrite Rmin_left, Rmax_right in Ht by lra. apply (is_derive_minus F (fun t => - (C / q * Rpower (1 - t) q))); [apply D; lra|apply DQ; lra].
    + intros t Ht. rewrite Rmin_left, Rmax_right in Ht by lra. apply continuity_pt_filterlim. apply (ex_derive_continuous (fun t => F t - - (C / q * Rpower (1 - t) q))).
      eexists. apply (is_derive_minus F (fun t => - (C / q * Rpower (1 - t) q))); [apply D; lra|apply DQ; lra].
    + rewrite Rmin_left, Rmax_right in Hc by lra. cbv beta in E. pose proof (CB c ltac:(lra)) as K.
      assert (PQ : 0 < Rpower (1 - c) (q - 1)) by apply exp_pos.
      assert ((Rpower c (p - 1) * Rpower (1 - c) (q - 1) - C * Rpower (1 - c) (q - 1)) * (x - 1 / 2) <= 0).
      { assert (0 <= (C - Rpower c (p - 1)) * Rpower (1 - c) (q - 1) * (x - 1 / 2)) by (repeat apply Rmult_le_pos; lra). lra. }
      assert (0 < C / q * Rpower (1 - x) q) by (apply Rmult_lt_0_compat; [apply Rdiv_lt_0_compat; lra|apply exp_pos]). lra.
  - exists l, F. split; [exact D|]. split; [exact F0|exact Hl].
Qed.

(** ** The beta integral through the gamma function *)
Lemma beta_wendel z s q b c : 0 < z -> 0 <= s <= 1 -> 0 < q -> euler_beta z q b -> euler_beta (z + s) q c -> c <= Rpower (z / (z + q)) s * b.
Proof.
  intros Hz Hs Hq Hb Hc. set (u := z / (z + q)). assert (U : 0 < u) by (apply Rdiv_lt_0_compat; lra).
  pose proof (euler_beta_S z q b Hz Hq Hb) as H1. fold u in H1.
  assert (E : Rpower u s * b = Rpower u s * (1 - s) * b + Rpower u s * s / u * (u * b)) by (field; lra).
  rewrite E. eapply integral_01_le; [|exact Hc|apply (integral_01_lin2 _ _ _ _ _ _ Hb H1)].
  intros t Ht. cbv beta.
  replace (Rpower t (z + s - 1)) with (Rpower t (z - 1) * Rpower t s) by (rewrite <- Rpower_plus; f_equal; ring).
  replace (Rpower t (z + 1 - 1)) with (Rpower t (z - 1) * t)
    by (rewrite <- (Rpower_1 t) at 2 by lra; rewrite <- Rpower_plus; f_equal; ring).
  set (r := Rpower (1 - t) (q - 1)).
  replace (Rpower u s * (1 - s) * (Rpower t (z - 1) * r) + Rpower u s * s / u * (Rpower t (z - 1) * t * r))
    with (Rpower t (z - 1) * r * (Rpower u s * (1 + s * (t / u - 1)))) by (field; lra).
  replace (Rpower t (z - 1) * Rpower t s * r) with (Rpower t (z - 1) * r * Rpower t s) by ring.
  apply Rmult_le_compat_l; [left; apply Rmult_lt_0_compat; apply exp_pos|].
  replace (Rpower t s) with (Rpower u s * Rpower (t / u) s).
  - apply Rmult_le_compat_l; [left; apply exp_pos|]. apply Rpower_bernoulli; [apply Rdiv_lt_0_compat; lra|assumption].
  - rewrite Rpower_mult_distr; [|lra|apply Rdiv_lt_0_compat; lra]. f_equal; field; lra.
Qed.
Lemma beta_wendel_ln z s q b c : 0 < z -> 0 <= s <= 1 -> 0 < q -> euler_beta z q b -> euler_beta (z + s) q c ->
  ln z - ln (z + q) - (1 - s) * (ln (z + s) - ln (z + s + q)) <= ln c - ln b <= s * (ln z - ln (z + q)).
Proof.
  intros Hz Hs Hq Hb Hc. pose proof (euler_beta_pos _ _ _ Hb) as Pb. pose proof (euler_beta_pos _ _ _ Hc) as Pc.
  assert (L : forall x y r B C, 0 < x -> 0 < y -> 0 < B -> 0 < C -> C <= Rpower (x / y) r * B -> ln C <= r * (ln x - ln y) + ln B).
  { intros x y r B C Hx Hy HB HC H. apply Rle_trans with (ln (Rpower (x / y) r * B)); [destruct H as [H| ->]; [left; now apply ln_increasing|lra]|].
    rewrite ln_mult; [|apply exp_pos|assumption]. unfold Rpower. rewrite ln_exp, ln_div by assumption. lra. }
  split.
  - pose proof (beta_wendel (z + s) (1 - s) q c (z / (z + q) * b) ltac:(lra) ltac:(lra) Hq Hc) as W.
    replace (z + s + (1 - s)) with (z + 1) in W by ring. specialize (W (euler_beta_S z q b Hz Hq Hb)).
    assert (0 < z / (z + q)) by (apply Rdiv_lt_0_compat; lra).
    apply L in W; [|lra|lra|lra|now apply Rmult_lt_0_compat]. rewrite ln_mult, ln_div in W by lra. lra.
  - pose proof (beta_wendel z s q b c Hz Hs Hq Hb Hc) as W. apply L in W; lra.
Qed.
Lemma euler_beta_rising p q b n : 0 < p -> 0 < q -> euler_beta p q b -> euler_beta (p + INR n) q (rising p n / rising (p + q) n * b).
Proof.
  intros Hp Hq Hb. induction n as [|n IH].
  - cbn [rising INR]. replace (p + 0) with p by ring. replace (1 / 1 * b) with b by field. exact Hb.
  - rewrite S_INR. replace (p + (INR n + 1)) with (p + INR n + 1) by ring. pose proof (pos_INR n). cbn [rising].
    pose proof (rising_pos p n Hp). pose proof (rising_pos (p + q) n ltac:(lra)).
    replace (rising p n * (p + INR n) / (rising (p + q) n * (p + q + INR n)) * b) with ((p + INR n) / (p + INR n + q) * (rising p n / rising (p + q) n * b)) by (field; lra).
    apply euler_beta_S; [lra|assumption|exact IH].
Qed.
Lemma euler_beta_1 q : 0 < q -> euler_beta 1 q (/ q).
Proof.
  intros Hq. exists (fun x => / q - / q * Rpower (1 - x) q). split; [|split].
  - intros x Hx. replace (1 - 1) with 0 by ring. rewrite Rpower_O by lra. unfold Rpower. auto_derive; [lra|]. match goal with |- ?a = ?b => change (@eq R a b) end.
    assert (E2 : exp (q * ln (1 + - x)) = (1 - x) * exp ((q - 1) * ln (1 - x))) by (replace (1 + - x) with (1 - x) by ring; apply (Rpower_pred (1 - x) q); lra).
    rewrite E2. replace (1 + - x) with (1 - x) by ring. field. lra.
  - apply (cont_right (fun x => / q - / q * Rpower (1 - x) q)).
    + unfold Rpower. apply (ex_derive_continuous (fun x => / q - / q * exp (q * ln (1 - x)))). auto_derive. lra.
    + replace (1 - 0) with 1 by ring. unfold Rpower. rewrite ln_1, Rmult_0_r, exp_0. field. lra.
  - apply (filterlim_ext (fun x => / q + Rpower (1 - x) q * - / q)); [intros; ring|].
    apply (filterlim_Rplus (fun _ => / q) (fun x => Rpower (1 - x) q * - / q) (/ q) 0); [apply filterlim_const| |ring].
    apply (filterlim_Rmult (fun x => Rpower (1 - x) q) (fun _ => - / q) 0 (- / q) 0); [now apply Rpower_lim_1|apply filterlim_const|ring].
Qed.
(** The defect ln B(p,q) + ln Gamma(p+q) - ln Gamma(p) at z and z + s differs by at most 1/z. *)
Lemma beta_defect z s q b c g1 g2 h1 h2 : 0 < z -> 0 <= s <= 1 -> 0 < q -> euler_beta z q b -> euler_beta (z + s) q c ->
  euler_gamma z g1 -> euler_gamma (z + s) g2 -> euler_gamma (z + q) h1 -> euler_gamma (z + s + q) h2 ->
  Rabs ((ln c + ln h2 - ln g2) - (ln b + ln h1 - ln g1)) <= / z.
Proof.
  intros Hz Hs Hq Hb Hc Hg1 Hg2 Hh1 Hh2. destruct (beta_wendel_ln z s q b c Hz Hs Hq Hb Hc) as [B1 B2].
  destruct (wendel_ln z s g1 g2 Hz Hs Hg1 Hg2) as [G1 G2].
  replace (z + s + q) with (z + q + s) in * by ring. destruct (wendel_ln (z + q) s h1 h2 ltac:(lra) Hs Hh1 Hh2) as [H1 H2].
  destruct (ln_diff_bounds z s Hz ltac:(lra)) as [_ LD].
  assert (s / z <= / z). { unfold Rdiv. rewrite <- (Rmult_1_l (/ z)) at 2. apply Rmult_le_compat_r; [left; now apply Rinv_0_lt_compat|lra]. }
  assert (LN : 0 <= ln (z + s) - ln z) by (destruct (Req_dec s 0) as [->|]; [right; replace (z + 0) with z by ring; ring|left; apply Rlt_Rminus, ln_increasing; lra]).
  assert (M : 0 <= (1 - s) * (ln (z + s) - ln z) <= ln (z + s) - ln z) by (split; nra).
  apply Rabs_le. split; nra.
Qed.
Theorem beta_gamma p q b gp gq gs : 0 < p -> 0 < q -> euler_beta p q b -> euler_gamma p gp -> euler_gamma q gq -> euler_gamma (p + q) gs ->
  b = gp * gq / gs.
Proof.
  intros Hp Hq Hb Hgp Hgq Hgs. pose proof (euler_beta_pos _ _ _ Hb) as Pb. pose proof (euler_gamma_pos _ _ Hgp) as Pgp.
  pose proof (euler_gamma_pos _ _ Hgq) as Pgq. pose proof (euler_gamma_pos _ _ Hgs) as Pgs.
  destruct (nfloor_ex p ltac:(lra)) as [j Hj]. set (s := p - INR j).
  assert (Hs : 0 <= s <= 1) by (unfold s; lra).
  assert (K : forall n, Rabs (ln b + ln gs - ln gp - ln gq) <= / INR (S n)).
  { intro n. set (m := (j + n)%nat). pose proof (pos_INR m) as M0.
    assert (Z : INR (S m) = 1 + INR m) by (rewrite S_INR; ring).
    pose proof (euler_beta_rising 1 q (/ q) m ltac:(lra) Hq (euler_beta_1 q Hq)) as B1.
    pose proof (euler_beta_rising p q b (S n) Hp Hq Hb) as B2.
    pose proof (euler_gamma_rising 1 1 m ltac:(lra) euler_gamma_1) as G1.
    pose proof (euler_gamma_rising p gp (S n) Hp Hgp) as G2.
    assert (Hq1 : euler_gamma (1 + q) (q * gq)) by (replace (1 + q) with (q + 1) by ring; now apply euler_gamma_S).
    pose proof (euler_gamma_rising (1 + q) (q * gq) m ltac:(lra) Hq1) as H1.
    pose proof (euler_gamma_rising (p + q) gs (S n) ltac:(lra) Hgs) as H2.
    assert (E1 : p + INR (S n) = 1 + INR m + s) by (unfold s, m; rewrite plus_INR, S_INR; ring).
    assert (E2 : p + q + INR (S n) = 1 + INR m + s + q) by lra. assert (E3 : 1 + q + INR m = 1 + INR m + q) by ring.
    rewrite E1 in B2, G2. rewrite E2 in H2. rewrite E3 in H1.
    pose proof (beta_defect (1 + INR m) s q _ _ _ _ _ _ ltac:(lra) Hs Hq B1 B2 G1 G2 H1 H2) as D.
    pose proof (rising_pos 1 m ltac:(lra)) as R1. pose proof (rising_pos (1 + q) m ltac:(lra)) as R2. pose proof (rising_pos p (S n) Hp) as R3. pose proof (rising_pos (p + q) (S n) ltac:(lra)) as R4.
    assert (IQ : 0 < / q) by (now apply Rinv_0_lt_compat).
    rewrite !ln_mult in D; try (lra || (apply Rdiv_lt_0_compat; assumption) || (apply Rmult_lt_0_compat; assumption)).
    rewrite !ln_div in D by lra. rewrite ln_1, (ln_Rinv q) in D by lra.
    match goal with D : Rabs ?x <= _ |- _ => replace x with (ln b + ln gs - ln gp - ln gq) in D by ring end.
    eapply Rle_trans; [exact D|]. apply Rinv_le_contravar; [apply lt_0_INR; lia|]. rewrite S_INR. unfold m. rewrite plus_INR. pose proof (pos_INR j). lra. }
  assert (Z0 : ln b + ln gs - ln gp - ln gq = 0).
  { destruct (Req_dec (ln b + ln gs - ln gp - ln gq) 0) as [E|N]; [exact E|exfalso]. apply Rabs_pos_lt in N.
    destruct (nfloor_ex (/ Rabs (ln b + ln gs - ln gp - ln gq))) as [n Hn]; [left; now apply Rinv_0_lt_compat|].
    specialize (K n). rewrite S_INR in K. set (r := Rabs _) in *. pose proof (pos_INR n).
    assert (r * (INR n + 1) <= 1). { apply Rle_trans with (/ (INR n + 1) * (INR n + 1)); [apply Rmult_le_compat_r; lra|right; field; lra]. }
    assert (r * / r < r * (INR n + 1)) by (apply Rmult_lt_compat_l; lra). rewrite Rinv_r in H1 by lra. lra. }
  apply ln_inv; [assumption|apply Rdiv_lt_0_compat; [now apply Rmult_lt_0_compat|assumption]|].
  rewrite ln_div, ln_mult; try assumption; [lra|now apply Rmult_lt_0_compat].
Qed.

(** ** Accuracy of the crate's beta function *)
Lemma sbeta_accuracy a b B : 0 < a -> 0 < b -> euler_beta a b B ->
  exists v, sbeta a b = Ret v /\ 0 < v /\ Rabs (v - B) <= 17 / 1000000000000 * B /\ Rabs (/ v - / B) <= 17 / 1000000000000 * / B.
Proof.
  intros Ha Hb HB. destruct (gamma_exists a Ha) as [ga Hga]. destruct (gamma_exists b Hb) as [gb Hgb]. destruct (gamma_exists (a + b) ltac:(lra)) as [gs Hgs].
  rewrite (beta_gamma a b B ga gb gs Ha Hb HB Hga Hgb Hgs).
  pose proof (euler_gamma_pos _ _ Hga) as Pa. pose proof (euler_gamma_pos _ _ Hgb) as Pb. pose proof (euler_gamma_pos _ _ Hgs) as Ps.
  destruct (sgamma_accuracy a ga (euler_is_gamma a ga Ha Hga)) as (va & Ea & Aa).
  destruct (sgamma_accuracy b gb (euler_is_gamma b gb Hb Hgb)) as (vb & Eb & Ab).
  destruct (sgamma_accuracy (a + b) gs (euler_is_gamma (a + b) gs ltac:(lra) Hgs)) as (vs & Es & As).
  assert (RL : forall g v, 0 < g -> Rabs (v - g) <= 5 / 1000000000000 * Rabs g -> exists d, v = g * (1 + d) /\ - (5 / 1000000000000) <= d <= 5 / 1000000000000).
  { intros g v Hg H. rewrite (Rabs_pos_eq g) in H by lra. apply Rabs_le_between in H. exists ((v - g) / g). split; [field; lra|].
    split; apply Rmult_le_reg_r with g; try assumption; unfold Rdiv; rewrite (Rmult_assoc (v - g)), Rinv_l by lra; lra. }
  destruct (RL ga va Pa Aa) as (da & -> & Da). destruct (RL gb vb Pb Ab) as (db & -> & Db). destruct (RL gs vs Ps As) as (ds & -> & Ds).
  exists (ga * (1 + da) * (gb * (1 + db)) / (gs * (1 + ds))). unfold sbeta. rops. rewrite Ea, Eb. cbn [bind]. rewrite Es. cbn [bind]. rops. split; [reflexivity|].
  assert (PP : 0 < ga * gb / gs) by (apply Rdiv_lt_0_compat; [now apply Rmult_lt_0_compat|assumption]). set (B0 := ga * gb / gs) in *.
  set (r := (1 + da) * (1 + db) / (1 + ds)).
  assert (E0 : ga * (1 + da) * (gb * (1 + db)) / (gs * (1 + ds)) = B0 * r) by (unfold B0, r; field; lra). rewrite E0.
  assert (N : (1 + da) * (1 + db) = 1 + (da + db + da * db)) by ring.
  assert (DD : - (1 / 10000000000000000) <= da * db <= 1 / 10000000000000000) by (split; nra).
  assert (RB : 1 - 16 / 1000000000000 <= r <= 1 + 16 / 1000000000000).
  { assert (K : r * (1 + ds) = 1 + (da + db + da * db)) by (unfold r; field; lra).
    split; (apply Rmult_le_reg_r with (1 + ds); [lra|]); rewrite K; lra. }
  split; [apply Rmult_lt_0_compat; lra|]. split.
  - replace (B0 * r - B0) with (B0 * (r - 1)) by ring. rewrite Rabs_mult, (Rabs_pos_eq B0) by lra. rewrite Rmult_comm. apply Rmult_le_compat_r; [lra|]. apply Rabs_le. lra.
  - replace (/ (B0 * r) - / B0) with ((1 - r) / r * / B0) by (field; lra). rewrite Rabs_mult, (Rabs_pos_eq (/ B0)) by (left; now apply Rinv_0_lt_compat).
    apply Rmult_le_compat_r; [left; now apply Rinv_0_lt_compat|]. apply Rabs_le.
    split; (apply Rmult_le_reg_r with r; [lra|]); unfold Rdiv; rewrite (Rmult_assoc (1 - r)), Rinv_l by lra; lra.
Qed.
Lemma inc_beta_total a b B F : euler_beta a b B -> incomplete_beta a b F -> filterlim F (at_left 1) (locally B).
Proof.
  intros [G [DG [G0 G1]]] HF. assert (HG : incomplete_beta a b G) by (split; assumption).
  apply (filterlim_ext_loc G); [|exact G1]. apply (near_left _ 1); [lra|]. intros y Hy. apply (inc_beta_unique a b G F HG HF). lra.
Qed.
(** The integral from x to 1 is the one with the parameters swapped from 0 to 1 - x. *)
Lemma inc_beta_reflect a b B F : euler_beta a b B -> incomplete_beta a b F -> incomplete_beta b a (fun x => B - F (1 - x)).
Proof.
  intros HB HF. pose proof (inc_beta_total a b B F HB HF) as L. destruct HF as [D F0]. split.
  - intros x Hx. specialize (D (1 - x) ltac:(lra)). replace (1 - (1 - x)) with x in D by ring.
    replace (Rpower x (b - 1) * Rpower (1 - x) (a - 1)) with (minus 0 (scal (-1) (Rpower (1 - x) (a - 1) * Rpower x (b - 1)))) by (unfold minus, plus, opp, scal; cbn; unfold mult; cbn; ring).
    apply (is_derive_minus (fun _ => B) (fun x => F (1 - x))); [exact (is_derive_const B x)|].
    apply (is_derive_comp F (fun x => 1 - x)); [exact D|]. auto_derive; [exact I|]. ring.
  - apply (filterlim_ext (fun x => B + F (1 - x) * (-1))); [intros; ring|].
    apply (filterlim_Rplus (fun _ => B) (fun x => F (1 - x) * -1) B (B * -1) 0); [apply filterlim_const| |ring].
    apply (filterlim_Rmult (fun x => F (1 - x)) (fun _ => -1) B (-1)); [|apply filterlim_const|ring].
    apply (filterlim_comp _ _ _ (fun x => 1 - x) F (at_right 0) (at_left 1)); [|exact L].
    intros P [e He]. exists e. intros y Hy Hl. apply He; [|lra].
    unfold ball in *; cbn in *. unfold AbsRing_ball, abs, minus, plus, opp in *; cbn in *.
    rewrite <- Rabs_Ropp. replace (- (1 - y + - (1))) with (y + - 0) by ring. exact Hy.
Qed.
Lemma close_inv v B w t : 0 < B -> 0 <= t -> Rabs (/ v - / B) <= 17 / 1000000000000 * / B -> Rabs (w - t / B) <= Rabs (w - t / v) + 17 / 1000000000000 * (t / B).
Proof.
  intros HB Ht H. replace (w - t / B) with ((w - t / v) + t * (/ v - / B)) by (unfold Rdiv; ring). eapply Rle_trans; [apply Rabs_triang|].
  apply Rplus_le_compat_l. rewrite Rabs_mult, (Rabs_pos_eq t) by assumption. replace (17 / 1000000000000 * (t / B)) with (t * (17 / 1000000000000 * / B)) by (unfold Rdiv; ring).
  now apply Rmult_le_compat_l.
Qed.
Lemma inc_reg_low a b x B F : 0 < a -> 0 < b -> 0 < x < 1 -> x * (a + b) <= a -> a + b <= 1073741823 -> euler_beta a b B -> incomplete_beta a b F ->
  exists k v, (forall fuel, (k <= fuel)%nat -> sbeta_inc_reg fuel x a b = Ret (Some v)) /\ 0 <= v /\
  Rabs (v - F x / B) <= 1 / 1000000000000000 * Rmax (x / (1 - x)) (b - 1) * v + 17 / 1000000000000 * (F x / B).
Proof.
  intros Ha Hb Hx H Hab HB HF. pose proof (euler_beta_pos _ _ _ HB) as PB. destruct (sbeta_inc_reg_low a b x Ha Hb Hx ltac:(lra) Hab) as (bt & k & v & Eb & Pb & V0 & Ev & A).
  exists k, v. split; [exact Ev|]. split; [exact V0|]. destruct (sbeta_accuracy a b B Ha Hb HB) as (w & Ew & _ & _ & Cw). rewrite Eb in Ew. apply Ret_inj in Ew. subst w.
  eapply Rle_trans; [apply (close_inv bt B v (F x) PB); [|exact Cw]|apply Rplus_le_compat_r; now apply A]. now apply (inc_beta_nonneg a b F x).
Qed.
Lemma inc_reg_high a b x B F : 0 < a -> 0 < b -> 0 < x < 1 -> a < x * (a + b) -> a + b <= 1073741823 -> euler_beta a b B -> incomplete_beta a b F ->
  exists k v, (forall fuel, (k <= fuel)%nat -> sbeta_inc_reg fuel x a b = Ret (Some v)) /\ v <= 1 /\
  Rabs (v - F x / B) <= 1 / 1000000000000000 * Rmax ((1 - x) / x) (a - 1) * (1 - v) + 17 / 1000000000000 * (1 - F x / B).
Proof.
  intros Ha Hb Hx H Hab HB HF. pose proof (euler_beta_pos _ _ _ HB) as PB. destruct (sbeta_inc_reg_high a b x Ha Hb Hx ltac:(lra) Hab) as (bt & k & v & Eb & Pb & V0 & Ev & A).
  exists k, v. split; [exact Ev|]. split; [exact V0|]. destruct (sbeta_accuracy a b B Ha Hb HB) as (w & Ew & _ & _ & Cw). rewrite Eb in Ew. apply Ret_inj in Ew. subst w.
  pose proof (inc_beta_reflect a b B F HB HF) as HG. specialize (A _ HG). cbv beta in A. replace (1 - (1 - x)) with x in A by ring.
  pose proof (inc_beta_nonneg b a _ (1 - x) ltac:(lra) HG) as N. cbv beta in N. replace (1 - (1 - x)) with x in N by ring.
  replace (v - F x / B) with (- ((1 - v) - (B - F x) / B)) by (field; lra). rewrite Rabs_Ropp. replace (1 - F x / B) with ((B - F x) / B) by (field; lra).
  eapply Rle_trans; [apply (close_inv bt B (1 - v) (B - F x) PB N Cw)|apply Rplus_le_compat_r, A].
Qed.
