(** Growth of Euler's gamma function: Wendel's inequalities and Stirling's formula. *)
From Coq Require Import Arith Lia List Bool ZArith Reals Lra Psatz.
From Coquelicot Require Import Coquelicot.
From Verif Require Import Scalar RealOps.
From Verif Require Import Stat_spec Special_spec Continuous_proofs Normal_proofs GammaFun_proofs.
Local Open Scope R_scope.

(** ** Integrals over the positive half-line are monotone *)
Lemma integral_pos_nonneg f v : (forall x, 0 < x -> 0 <= f x) -> integral_pos f v -> 0 <= v.
Proof.
  intros Hf [F [DF [F0 F1]]].
  assert (M : forall x y, 0 < x -> x < y -> F x <= F y).
  { intros x y Hx Hy.
    destruct (MVT_gen F x y f) as [c [Hc E]].
    - intros t Ht. rewrite Rmin_left, Rmax_right in Ht by lra. apply DF. lra.
    - intros t Ht. rewrite Rmin_left, Rmax_right in Ht by lra. apply continuity_pt_filterlim. apply (ex_derive_continuous F t). exists (f t). apply DF. lra.
    - rewrite Rmin_left, Rmax_right in Hc by lra. pose proof (Hf c ltac:(lra)). assert (0 <= f c * (y - x)) by (apply Rmult_le_pos; lra). lra. }
  assert (P : 0 <= F 1).
  { assert (Q : Rbar_le 0 (F 1)); [|exact Q].
    apply (filterlim_le (F := at_right 0) F (fun _ => F 1) 0 (F 1)); [|exact F0|apply filterlim_const].
    exists posreal_one. intros y Hy Hl. unfold ball in Hy; cbn in Hy.
    unfold AbsRing_ball, abs, minus, plus, opp in Hy; cbn in Hy. apply Rabs_def2 in Hy.
    apply M; [exact Hl|lra]. }
  assert (Q : Rbar_le (F 1) v).
  { apply (filterlim_le (F := Rbar_locally p_infty) (fun _ => F 1) F (F 1) v); [|apply filterlim_const|exact F1].
    exists 1. intros x Hx. apply M; lra. }
  cbn in Q. lra.
Qed.
Lemma integral_pos_lin2 f g v w a b : integral_pos f v -> integral_pos g w ->
  integral_pos (fun x => a * f x + b * g x) (a * v + b * w).
Proof.
  intros [F [DF [F0 F1]]] [G [DG [G0 G1]]]. exists (fun x => a * F x + b * G x). split; [|split].
  - intros x Hx. apply (is_derive_plus (fun x => a * F x) (fun x => b * G x)).
    + apply (is_derive_scal F x a). now apply DF.
    + apply (is_derive_scal G x b). now apply DG.
  - apply (filterlim_Rplus (fun x => a * F x) (fun x => b * G x) 0 0 0); [| |ring].
    + apply (filterlim_Rmult (fun _ => a) F a 0 0); [apply filterlim_const|assumption|ring].
    + apply (filterlim_Rmult (fun _ => b) G b 0 0); [apply filterlim_const|assumption|ring].
  - apply (is_lim_plus' (fun x => a * F x) (fun x => b * G x)).
    + apply (is_lim_scal_l F a p_infty v). assumption.
    + apply (is_lim_scal_l G b p_infty w). assumption.
Qed.
Lemma integral_pos_le f g v w : (forall x, 0 < x -> f x <= g x) -> integral_pos f v -> integral_pos g w -> v <= w.
Proof.
  intros H Hf Hg. pose proof (integral_pos_lin2 f g v w (-1) 1 Hf Hg) as L.
  apply integral_pos_nonneg in L; [lra|]. intros x Hx. pose proof (H x Hx). lra.
Qed.

(** ** Bernoulli's inequality for real exponents and Wendel's inequalities *)
Lemma ln_le_sub1 y : 0 < y -> ln y <= y - 1.
Proof.
  intros Hy. destruct (Req_dec y 1) as [->|N]; [rewrite ln_1; lra|].
  pose proof (exp_ineq1 (ln y)) as X. rewrite exp_ln in X by assumption.
  assert (ln y <> 0). { intros E. apply N. rewrite <- (exp_ln y) by assumption. rewrite E. apply exp_0. }
  specialize (X H). lra.
Qed.
Lemma Rpower_bernoulli u s : 0 < u -> 0 <= s <= 1 -> Rpower u s <= 1 + s * (u - 1).
Proof.
  intros Hu Hs. set (a := 1 + s * (u - 1)).
  assert (Ha : 0 < a).
  { unfold a. destruct (Req_dec s 1) as [->|N]; [lra|]. assert (0 <= s * u) by (apply Rmult_le_pos; lra). lra. }
  pose proof (ln_le_sub1 (u / a) ltac:(apply Rdiv_lt_0_compat; assumption)) as A1.
  pose proof (ln_le_sub1 (/ a) ltac:(apply Rinv_0_lt_compat; assumption)) as A2.
  rewrite ln_div in A1 by assumption. rewrite ln_Rinv in A2 by assumption.
  assert (B : s * (u / a - 1) + (1 - s) * (/ a - 1) = 0) by (unfold a; field; unfold a in Ha; lra).
  assert (s * (ln u - ln a) <= s * (u / a - 1)) by (apply Rmult_le_compat_l; lra).
  assert ((1 - s) * - ln a <= (1 - s) * (/ a - 1)) by (apply Rmult_le_compat_l; lra).
  unfold Rpower. rewrite <- (exp_ln a Ha).
  destruct (Rle_lt_or_eq_dec (s * ln u) (ln a) ltac:(lra)) as [L|L]; [left; now apply exp_increasing|rewrite L; lra].
Qed.
Lemma wendel_upper z s g h : 0 < z -> 0 <= s <= 1 -> euler_gamma z g -> euler_gamma (z + s) h -> h <= Rpower z s * g.
Proof.
  intros Hz Hs Hg Hh.
  pose proof (euler_gamma_S z g Hz Hg) as H1.
  assert (E : Rpower z s * g = Rpower z s * (1 - s) * g + Rpower z s * s / z * (z * g)) by (field; lra).
  rewrite E. eapply integral_pos_le; [|exact Hh|apply (integral_pos_lin2 _ _ _ _ _ _ Hg H1)].
  intros t Ht. cbv beta.
  replace (Rpower t (z + s - 1)) with (Rpower t (z - 1) * Rpower t s) by (rewrite <- Rpower_plus; f_equal; ring).
  replace (Rpower t (z + 1 - 1)) with (Rpower t (z - 1) * t)
    by (rewrite <- (Rpower_1 t Ht) at 2; rewrite <- Rpower_plus; f_equal; ring).
  replace (Rpower z s * (1 - s) * (Rpower t (z - 1) * exp (- t)) + Rpower z s * s / z * (Rpower t (z - 1) * t * exp (- t)))
    with (Rpower t (z - 1) * exp (- t) * (Rpower z s * (1 + s * (t / z - 1)))) by (field; lra).
  replace (Rpower t (z - 1) * Rpower t s * exp (- t)) with (Rpower t (z - 1) * exp (- t) * Rpower t s) by ring.
  apply Rmult_le_compat_l; [left; apply gint_pos|].
  replace (Rpower t s) with (Rpower z s * Rpower (t / z) s).
  - apply Rmult_le_compat_l; [left; apply exp_pos|]. apply Rpower_bernoulli; [apply Rdiv_lt_0_compat; lra|assumption].
  - rewrite Rpower_mult_distr; [|lra|apply Rdiv_lt_0_compat; lra].
    f_equal; field; lra.
Qed.
Lemma wendel_lower z s g h : 0 < z -> 0 <= s <= 1 -> euler_gamma z g -> euler_gamma (z + s) h -> z * g <= Rpower (z + s) (1 - s) * h.
Proof.
  intros Hz Hs Hg Hh. apply (wendel_upper (z + s) (1 - s) h (z * g)); [lra|lra|assumption|].
  replace (z + s + (1 - s)) with (z + 1) by ring. now apply euler_gamma_S.
Qed.
Lemma wendel_ln z s g h : 0 < z -> 0 <= s <= 1 -> euler_gamma z g -> euler_gamma (z + s) h ->
  - (1 - s) * (ln (z + s) - ln z) <= ln h - ln g - s * ln z <= 0.
Proof.
  intros Hz Hs Hg Hh. pose proof (euler_gamma_pos _ _ Hg) as Pg. pose proof (euler_gamma_pos _ _ Hh) as Ph.
  pose proof (wendel_upper z s g h Hz Hs Hg Hh) as U. pose proof (wendel_lower z s g h Hz Hs Hg Hh) as L.
  apply ln_le in U; [|assumption]. apply ln_le in L; [|apply Rmult_lt_0_compat; lra].
  rewrite ln_mult in U by (try assumption; apply exp_pos). rewrite !ln_mult in L by (try assumption; apply exp_pos).
  unfold Rpower in U, L. rewrite ln_exp in U, L. split; lra.
Qed.

(** ** Rising products *)
Lemma rising_pos z n : 0 < z -> 0 < rising z n.
Proof. intros Hz. induction n; cbn [rising]; [lra|]. apply Rmult_lt_0_compat; [assumption|]. pose proof (pos_INR n). lra. Qed.
Lemma euler_gamma_rising z g n : 0 < z -> euler_gamma z g -> euler_gamma (z + INR n) (rising z n * g).
Proof.
  intros Hz Hg. induction n as [|n IH].
  - cbn [rising]. change (INR 0) with 0. rewrite Rplus_0_r, Rmult_1_l. assumption.
  - rewrite S_INR. cbn [rising]. replace (z + (INR n + 1)) with (z + INR n + 1) by ring.
    replace (rising z n * (z + INR n) * g) with ((z + INR n) * (rising z n * g)) by ring.
    apply euler_gamma_S; [pose proof (pos_INR n); lra|assumption].
Qed.
Lemma rising_1 n : rising 1 n = INR (fact n).
Proof.
  induction n as [|n IH]; [reflexivity|]. cbn [rising]. rewrite IH. rewrite fact_simpl, mult_INR, S_INR. ring.
Qed.
Lemma euler_gamma_1 : euler_gamma 1 1.
Proof. apply (glr_gamma _ _ _ glr_1). Qed.
Lemma euler_gamma_half : euler_gamma (1 / 2) (sqrt PI).
Proof. apply (glr_gamma _ _ _ glr_half). Qed.
(** Legendre's duplication formula at integers. *)
Lemma rising_dup n : rising 1 (2 * n) = 4 ^ n * rising (1 / 2) n * rising 1 n.
Proof.
  induction n as [|n IH]; [cbn; ring|].
  replace (2 * S n)%nat with (S (S (2 * n))) by lia. cbn [rising pow]. rewrite IH. rewrite S_INR, mult_INR. cbn [INR]. field.
Qed.

(** ** Logarithm bounds *)
Lemma mono_from_0 (f f' : R -> R) x : 0 <= x -> (forall t, 0 <= t -> is_derive f t (f' t)) -> (forall t, 0 <= t -> 0 <= f' t) -> f 0 = 0 -> 0 <= f x.
Proof.
  intros Hx D P Z. destruct (Req_dec x 0) as [->|N]; [lra|].
  destruct (MVT_gen f 0 x f') as [c [Hc E]].
  - intros t Ht. rewrite Rmin_left in Ht by lra. apply D. lra.
  - intros t Ht. rewrite Rmin_left in Ht by lra. apply continuity_pt_filterlim. apply (ex_derive_continuous f t). exists (f' t). apply D. lra.
  - rewrite Rmin_left in Hc by lra. pose proof (P c ltac:(lra)). assert (0 <= f' c * (x - 0)) by (apply Rmult_le_pos; lra). lra.
Qed.
Lemma ln1p_lower x : 0 <= x -> 2 * x / (2 + x) <= ln (1 + x).
Proof.
  intros Hx. assert (0 <= ln (1 + x) - 2 * x / (2 + x)); [|lra].
  apply (mono_from_0 (fun x => ln (1 + x) - 2 * x / (2 + x)) (fun t => t * t / ((1 + t) * ((2 + t) * (2 + t))))); [assumption| | |].
  - intros t Ht. auto_derive; [repeat split; lra|]. match goal with |- ?a = ?b => change (@eq R a b) end. field. lra.
  - intros t Ht. apply Rdiv_le_0_compat; [nra|]. apply Rmult_lt_0_compat; [lra|]. nra.
  - replace (1 + 0) with 1 by ring. rewrite ln_1. field.
Qed.
Lemma ln1p_upper x : 0 <= x -> ln (1 + x) <= x * (2 + x) / (2 * (1 + x)).
Proof.
  intros Hx. assert (0 <= x * (2 + x) / (2 * (1 + x)) - ln (1 + x)); [|lra].
  apply (mono_from_0 (fun x => x * (2 + x) / (2 * (1 + x)) - ln (1 + x)) (fun t => t * t / (2 * ((1 + t) * (1 + t))))); [assumption| | |].
  - intros t Ht. auto_derive; [repeat split; lra|]. match goal with |- ?a = ?b => change (@eq R a b) end. field. lra.
  - intros t Ht. apply Rdiv_le_0_compat; nra.
  - replace (1 + 0) with 1 by ring. rewrite ln_1. field.
Qed.
Lemma ln_diff_bounds w s : 0 < w -> 0 <= s -> s / (w + s) <= ln (w + s) - ln w <= s / w.
Proof.
  intros Hw Hs. pose proof (ln_le_sub1 ((w + s) / w) ltac:(apply Rdiv_lt_0_compat; lra)) as A.
  pose proof (ln_le_sub1 (w / (w + s)) ltac:(apply Rdiv_lt_0_compat; lra)) as B.
  rewrite ln_div in A, B by lra. split.
  - replace (s / (w + s)) with (1 - w / (w + s)) by (field; lra). lra.
  - replace (s / w) with ((w + s) / w - 1) by (field; lra). lra.
Qed.

(** ** Limits at infinity *)
Lemma lim_inv_shift c : is_lim (fun w => / (w + c)) p_infty 0.
Proof.
  apply (is_lim_inv (fun w => w + c) p_infty p_infty); [|discriminate].
  apply (is_lim_plus (fun x => x) (fun _ => c) p_infty p_infty c p_infty); [apply is_lim_id|apply is_lim_const|reflexivity].
Qed.
Lemma lim_scaled_inv (a c k : R) : is_lim (fun w => k + a * / (w + c)) p_infty k.
Proof.
  replace (Finite k) with (Finite (k + a * 0)) by (f_equal; ring).
  apply (is_lim_plus' (fun _ => k) (fun w => a * / (w + c))); [apply is_lim_const|].
  apply (is_lim_scal_l (fun w => / (w + c)) a p_infty 0). apply lim_inv_shift.
Qed.
Lemma lim_ln_diff (c s : R) : 0 <= s -> is_lim (fun w => (w + c) * (ln (w + s) - ln w)) p_infty s.
Proof.
  intros Hs.
  apply (is_lim_le_le_loc (fun w => s + s * (c - s) * / (w + s)) (fun w => s + s * c * / (w + 0))); [|apply lim_scaled_inv|apply lim_scaled_inv].
  exists (Rmax 0 (- c)). intros w Hw. pose proof (Rmax_l 0 (- c)). pose proof (Rmax_r 0 (- c)).
  destruct (ln_diff_bounds w s ltac:(lra) Hs) as [L U]. split.
  - replace (s + s * (c - s) * / (w + s)) with ((w + c) * (s / (w + s))) by (field; lra). apply Rmult_le_compat_l; lra.
  - replace (s + s * c * / (w + 0)) with ((w + c) * (s / w)) by (field; lra). apply Rmult_le_compat_l; lra.
Qed.
Lemma lim_ln_diff0 (s : R) : 0 <= s -> is_lim (fun w => ln (w + s) - ln w) p_infty 0.
Proof.
  intros Hs.
  apply (is_lim_le_le_loc (fun w => 0 + s * / (w + s)) (fun w => 0 + s * / (w + 0))); [|apply lim_scaled_inv|apply lim_scaled_inv].
  exists 0. intros w Hw. destruct (ln_diff_bounds w s ltac:(lra) Hs) as [L U].
  rewrite !Rplus_0_l, Rplus_0_r. split; unfold Rdiv in *; lra.
Qed.
Lemma seq_of_lim (f : R -> R) (l : R) c : is_lim f p_infty l -> is_lim_seq (fun n => f (c + INR n)) l.
Proof.
  intros H. apply (is_lim_comp_seq f (fun n => c + INR n) p_infty l H).
  - exists O. intros n _. discriminate.
  - apply (is_lim_seq_plus (fun _ => c) INR c p_infty p_infty); [apply is_lim_seq_const|apply is_lim_seq_INR|reflexivity].
Qed.

(** ** Stirling's formula *)
Definition stir (z : R) : R := (z - 1 / 2) * ln z - z.
Lemma stir_step z : 0 < z -> 0 <= stir (z + 1) - stir z - ln z <= 1 / 4 * (/ z - / (z + 1)).
Proof.
  intros Hz. assert (E : stir (z + 1) - stir z - ln z = (z + 1 / 2) * ln (1 + / z) - 1).
  { replace (1 + / z) with ((z + 1) / z) by (field; lra). rewrite ln_div by lra. unfold stir. field. }
  assert (0 < / z) by now apply Rinv_0_lt_compat.
  pose proof (ln1p_lower (/ z) ltac:(lra)) as L. pose proof (ln1p_upper (/ z) ltac:(lra)) as U.
  rewrite E. split.
  - assert ((z + 1 / 2) * (2 * / z / (2 + / z)) <= (z + 1 / 2) * ln (1 + / z)) by (apply Rmult_le_compat_l; lra).
    assert ((z + 1 / 2) * (2 * / z / (2 + / z)) = 1) by (field; lra). lra.
  - assert ((z + 1 / 2) * ln (1 + / z) <= (z + 1 / 2) * (/ z * (2 + / z) / (2 * (1 + / z)))) by (apply Rmult_le_compat_l; lra).
    assert ((z + 1 / 2) * (/ z * (2 + / z) / (2 * (1 + / z))) = 1 + 1 / 4 * (/ z - / (z + 1))) by (field; lra). lra.
Qed.
Definition st_u (z g : R) (n : nat) : R := ln (rising z n * g) - stir (z + INR n).
Lemma st_u_step z g n : 0 < z -> 0 < g ->
  - (1 / 4 * (/ (z + INR n) - / (z + INR n + 1))) <= st_u z g (S n) - st_u z g n <= 0.
Proof.
  intros Hz Hg. pose proof (pos_INR n). pose proof (stir_step (z + INR n) ltac:(lra)) as S.
  unfold st_u. cbn [rising]. rewrite S_INR. pose proof (rising_pos z n Hz).
  rewrite !ln_mult by (try assumption; try lra; apply Rmult_lt_0_compat; lra).
  replace (z + (INR n + 1)) with (z + INR n + 1) by ring. split; lra.
Qed.
Lemma st_u_conv z g : 0 < z -> 0 < g -> exists U : R, is_lim_seq (st_u z g) U.
Proof.
  intros Hz Hg. apply ex_finite_lim_seq_decr with (M := st_u z g 0 - 1 / 4 * / z).
  - intros n. pose proof (st_u_step z g n Hz Hg). lra.
  - intros n. assert (st_u z g 0 - 1 / 4 * (/ z - / (z + INR n)) <= st_u z g n).
    { induction n as [|n IH]; [change (INR 0) with 0; rewrite Rplus_0_r; lra|].
      pose proof (st_u_step z g n Hz Hg). rewrite S_INR. replace (z + (INR n + 1)) with (z + INR n + 1) by ring. lra. }
    pose proof (pos_INR n). assert (0 < / (z + INR n)) by (apply Rinv_0_lt_compat; lra). lra.
Qed.
Lemma stir_shift_lim s : 0 <= s -> is_lim (fun w => stir (w + s) - stir w - s * ln w) p_infty 0.
Proof.
  intros Hs. apply (is_lim_ext (fun w => (w + (s - 1 / 2)) * (ln (w + s) - ln w) - s)).
  - intros w. unfold stir. ring.
  - replace (Finite 0) with (Finite (s - s)) by (f_equal; ring).
    apply is_lim_minus'; [now apply lim_ln_diff|apply is_lim_const].
Qed.
(** Shifting by s in [0,1] does not change the limit. *)
Lemma st_u_shift z s g h U : 0 < z -> 0 <= s <= 1 -> euler_gamma z g -> euler_gamma (z + s) h ->
  is_lim_seq (st_u z g) U -> is_lim_seq (st_u (z + s) h) U.
Proof.
  intros Hz Hs Hg Hh HU.
  set (d := fun n => st_u (z + s) h n - st_u z g n).
  assert (Hd : is_lim_seq d 0).
  { pose proof (seq_of_lim _ _ z (stir_shift_lim s ltac:(lra))) as S.
    pose proof (seq_of_lim _ _ z (lim_ln_diff0 s ltac:(lra))) as L.
    apply (is_lim_seq_le_le (fun n => - (1 - s) * (ln (z + INR n + s) - ln (z + INR n)) - (stir (z + INR n + s) - stir (z + INR n) - s * ln (z + INR n)))
             d (fun n => 0 - (stir (z + INR n + s) - stir (z + INR n) - s * ln (z + INR n)))).
    - intros n. unfold d, st_u. pose proof (pos_INR n).
      pose proof (euler_gamma_rising z g n Hz Hg) as A. pose proof (euler_gamma_rising (z + s) h n ltac:(lra) Hh) as B.
      replace (z + s + INR n) with (z + INR n + s) in * by ring.
      pose proof (wendel_ln (z + INR n) s _ _ ltac:(lra) Hs A B). lra.
    - replace (Finite 0) with (Finite (- (1 - s) * 0 - 0)) by (f_equal; ring).
      apply is_lim_seq_minus'; [|exact S]. apply (is_lim_seq_scal_l _ (- (1 - s)) 0). exact L.
    - replace (Finite 0) with (Finite (0 - 0)) by (f_equal; ring).
      apply is_lim_seq_minus'; [apply is_lim_seq_const|exact S]. }
  apply (is_lim_seq_ext (fun n => st_u z g n + d n)); [intros n; unfold d; ring|].
  destruct U as [U| |].
  - replace (Finite U) with (Finite (U + 0)) by (f_equal; ring). now apply is_lim_seq_plus'.
  - apply (is_lim_seq_plus _ _ p_infty 0 p_infty HU Hd). reflexivity.
  - apply (is_lim_seq_plus _ _ m_infty 0 m_infty HU Hd). reflexivity.
Qed.
Lemma st_const : is_lim_seq (st_u 1 1) (1 / 2 * ln (2 * PI)).
Proof.
  pose proof PI_RGT_0 as PP. assert (SP : 0 < sqrt PI) by now apply sqrt_lt_R0.
  destruct (st_u_conv (1 / 2) (sqrt PI) ltac:(lra) SP) as [U HU].
  assert (H1 : is_lim_seq (st_u 1 1) U).
  { replace 1 with (1 / 2 + 1 / 2) at 1 by field. apply (st_u_shift (1 / 2) (1 / 2) (sqrt PI) 1); [lra|lra|apply euler_gamma_half| |exact HU].
    replace (1 / 2 + 1 / 2) with 1 by field. apply euler_gamma_1. }
  assert (H2 : is_lim_seq (fun n => st_u 1 1 (2 * n)) U).
  { apply (is_lim_seq_subseq (st_u 1 1) U (fun n => (2 * n)%nat)); [|exact H1]. apply eventually_subseq. intros n. lia. }
  assert (K : is_lim_seq (fun n => (1 / 2 + INR n + 0) * (ln (1 / 2 + INR n + 1 / 2) - ln (1 / 2 + INR n))) (1 / 2)).
  { apply (seq_of_lim (fun w => (w + 0) * (ln (w + 1 / 2) - ln w)) (1 / 2) (1 / 2)). apply lim_ln_diff. lra. }
  assert (H3 : is_lim_seq (fun n => st_u 1 1 (2 * n)) (U + U + (1 / 2 - 1 / 2 - 1 / 2 * ln (2 * PI)))).
  { apply (is_lim_seq_ext (fun n => st_u 1 1 n + st_u (1 / 2) (sqrt PI) n
             + ((1 / 2 + INR n + 0) * (ln (1 / 2 + INR n + 1 / 2) - ln (1 / 2 + INR n)) - 1 / 2 - 1 / 2 * ln (2 * PI)))).
    - intros n. unfold st_u, stir. rewrite rising_dup. pose proof (pos_INR n).
      pose proof (rising_pos 1 n ltac:(lra)). pose proof (rising_pos (1 / 2) n ltac:(lra)).
      assert (P4 : 0 < 4 ^ n) by (apply pow_lt; lra).
      assert (L4 : ln (4 ^ n) = 2 * INR n * ln 2).
      { replace 4 with (2 ^ 2) by ring. rewrite <- pow_mult. rewrite ln_pow by lra. rewrite mult_INR. cbn [INR]. ring. }
      rewrite !Rmult_1_r. rewrite (ln_mult 2 PI) by lra.
      rewrite (ln_mult (4 ^ n * rising (1 / 2) n)) by (try assumption; now apply Rmult_lt_0_compat).
      rewrite (ln_mult (4 ^ n)) by assumption. rewrite (ln_mult (rising (1 / 2) n)) by assumption.
      rewrite L4.
      replace (1 + INR (2 * n)) with (2 * (1 / 2 + INR n)) by (rewrite mult_INR; cbn [INR]; field).
      rewrite (ln_mult 2 (1 / 2 + INR n)) by lra.
      replace (1 / 2 + INR n + 1 / 2) with (1 + INR n) by field. 
      assert (LS : ln (sqrt PI) = 1 / 2 * ln PI).
      { assert (E : ln PI = ln (sqrt PI) + ln (sqrt PI)) by (rewrite <- ln_mult by assumption; rewrite sqrt_sqrt by lra; reflexivity). lra. }
      rewrite LS. field.
    - apply is_lim_seq_plus'; [now apply is_lim_seq_plus'|].
      apply is_lim_seq_minus'; [|apply is_lim_seq_const]. apply is_lim_seq_minus'; [exact K|apply is_lim_seq_const]. }
  apply is_lim_seq_unique in H2. apply is_lim_seq_unique in H3. rewrite H2 in H3.
  apply (f_equal real) in H3. cbn in H3. assert (E : U = 1 / 2 * ln (2 * PI)) by lra. rewrite <- E. exact H1.
Qed.
(** Stirling's formula along z, z+1, z+2, ... for any z > 0. *)
Theorem stirling z g : 0 < z -> euler_gamma z g -> is_lim_seq (st_u z g) (1 / 2 * ln (2 * PI)).
Proof.
  intros Hz Hg. destruct (nfloor_ex z ltac:(lra)) as [m [H1 H2]].
  set (s := z - INR m).
  (* the integer sequence from m + 1 on *)
  assert (A : is_lim_seq (st_u (1 + INR m) (rising 1 m * 1)) (1 / 2 * ln (2 * PI))).
  { apply (is_lim_seq_ext (fun n => st_u 1 1 (n + m))); [|apply (is_lim_seq_incr_n (st_u 1 1) m); apply st_const].
    intros n. unfold st_u. rewrite plus_INR. replace (1 + (INR n + INR m)) with (1 + INR m + INR n) by ring. f_equal. f_equal.
    rewrite !Rmult_1_r. induction n as [|n IH]; [cbn; ring|]. change (S n + m)%nat with (S (n + m)). cbn [rising]. rewrite IH, plus_INR. ring. }
  pose proof (st_u_shift (1 + INR m) s (rising 1 m * 1) (z * g) (1 / 2 * ln (2 * PI)) ltac:(pose proof (pos_INR m); lra) ltac:(unfold s; lra)) as B.
  specialize (B (euler_gamma_rising 1 1 m ltac:(lra) euler_gamma_1)).
  replace (1 + INR m + s) with (z + 1) in B by (unfold s; ring). specialize (B (euler_gamma_S z g Hz Hg) A).
  apply is_lim_seq_incr_1. apply (is_lim_seq_ext (st_u (z + 1) (z * g))); [|exact B].
  intros n. unfold st_u. rewrite S_INR. replace (z + 1 + INR n) with (z + (INR n + 1)) by ring. f_equal. f_equal.
  induction n as [|n IH]; [cbn; ring|]. change (rising (z + 1) (S n)) with (rising (z + 1) n * (z + 1 + INR n)).
  change (rising z (S (S n))) with (rising z (S n) * (z + INR (S n))). rewrite S_INR.
  replace (rising (z + 1) n * (z + 1 + INR n) * (z * g)) with (rising (z + 1) n * (z * g) * (z + 1 + INR n)) by ring. rewrite IH. ring.
Qed.
