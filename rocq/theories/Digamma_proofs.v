(** Accuracy of the digamma function: de Moivre's expansion encloses Gauss's limit. *)
From Coq Require Import Arith Lia List Bool ZArith Reals Lra Psatz.
From Coquelicot Require Import Coquelicot.
From Verif Require Import Outcome Scalar RealOps Int_model Ode_model Special_model.
From Verif Require Import Special_spec Discrete_proofs OdeOrder_proofs Continuous_proofs Normal_proofs Special_proofs SpecialNew_proofs.
Local Open Scope R_scope.

Definition dm_h (e r : R) : R :=
  - (1 / 2) * r - r * r * (1 / 12 - r * r * (1 / 120 - r * r * (1 / 252 - r * r * (1 / 240 - r * r * (1 / 132 - r * r * (691 / 32760 - r * r * (1 / 12))))))) + e * r ^ 16.
Definition dm_T (e x : R) : R := ln x + dm_h e (/ x).
Definition dm_D (e x : R) : R := dm_T e (x + 1) - dm_T e x - / x.
Definition dm_dT (e x : R) : R :=
  / x + / 2 * / x ^ 2 + 1 / 6 * / x ^ 3 - 1 / 30 * / x ^ 5 + 1 / 42 * / x ^ 7 - 1 / 30 * / x ^ 9 + 5 / 66 * / x ^ 11
  - 691 / 2730 * / x ^ 13 + 7 / 6 * / x ^ 15 - 16 * e * / x ^ 17.
Lemma dm_T_derive e x : 0 < x -> is_derive (dm_T e) x (dm_dT e x).
Proof.
  intros Hx. unfold dm_T, dm_h, dm_dT. auto_derive; [repeat split; lra|].
  match goal with |- ?a = ?b => change (@eq R a b) end. field. lra.
Qed.
Lemma dm_D_derive e x : 0 < x -> is_derive (dm_D e) x (dm_dT e (x + 1) - dm_dT e x + / x ^ 2).
Proof.
  intros Hx. unfold dm_D.
  replace (dm_dT e (x + 1) - dm_dT e x + / x ^ 2) with (dm_dT e (x + 1) - dm_dT e x - - / x ^ 2) by ring.
  apply (is_derive_minus (fun x => dm_T e (x + 1) - dm_T e x) (fun x => / x)).
  - apply (is_derive_minus (fun x => dm_T e (x + 1)) (dm_T e)); [|now apply dm_T_derive].
    replace (dm_dT e (x + 1)) with (1 * dm_dT e (x + 1)) by ring.
    apply (is_derive_comp (dm_T e) (fun x => x + 1) x); [apply dm_T_derive; lra|].
    auto_derive; [exact I|ring].
  - auto_derive; [lra|]. match goal with |- ?a = ?b => change (@eq R a b) end. field. lra.
Qed.
Lemma dm_D_num_0 x : 0 < x -> dm_dT 0 (x + 1) - dm_dT 0 x + / x ^ 2 < 0.
Proof.
  intros Hx.
  assert (E : dm_dT 0 (x + 1) - dm_dT 0 x + / x ^ 2 =
    - ((7/6 + 35/2 * x + 166867/1365 * x^2 + 143881/273 * x^3 + 1343627/858 * x^4 + 223705/66 * x^5 + 907762/165 * x^6 + 1118926/165 * x^7
       + 2929357/462 * x^8 + 61923/14 * x^9 + 232139/105 * x^10 + 3617/5 * x^11 + 3617/30 * x^12) / (x ^ 15 * (x + 1) ^ 15))).
  { unfold dm_dT. field. split; lra. }
  rewrite E. apply Ropp_lt_gt_0_contravar. apply Rdiv_lt_0_compat; [|apply Rmult_lt_0_compat; apply pow_lt; lra].
  assert (P : forall n, 0 < x ^ n) by (intro; now apply pow_lt).
  pose proof (P 2%nat). pose proof (P 3%nat). pose proof (P 4%nat). pose proof (P 5%nat). pose proof (P 6%nat). pose proof (P 7%nat).
  pose proof (P 8%nat). pose proof (P 9%nat). pose proof (P 10%nat). pose proof (P 11%nat). pose proof (P 12%nat). lra.
Qed.
Lemma dm_D_num_1 x : 0 < x -> 0 < dm_dT (3617 / 8160) (x + 1) - dm_dT (3617 / 8160) x + / x ^ 2.
Proof.
  intros Hx.
  assert (E : dm_dT (3617 / 8160) (x + 1) - dm_dT (3617 / 8160) x + / x ^ 2 =
    (3617/510 + 3617/30 * x + 28901/30 * x^2 + 28817/6 * x^3 + 15216037/910 * x^4 + 7843697/182 * x^5 + 2553457337/30030 * x^6
     + 3930319273/30030 * x^7 + 680238733/4290 * x^8 + 3327199/22 * x^9 + 51985783/462 * x^10 + 147578723/2310 * x^11
     + 20396281/770 * x^12 + 43867/6 * x^13 + 43867/42 * x^14) / (x ^ 17 * (x + 1) ^ 17)).
  { unfold dm_dT. field. split; lra. }
  rewrite E. apply Rdiv_lt_0_compat; [|apply Rmult_lt_0_compat; apply pow_lt; lra].
  assert (P : forall n, 0 < x ^ n) by (intro; now apply pow_lt).
  pose proof (P 2%nat). pose proof (P 3%nat). pose proof (P 4%nat). pose proof (P 5%nat). pose proof (P 6%nat). pose proof (P 7%nat).
  pose proof (P 8%nat). pose proof (P 9%nat). pose proof (P 10%nat). pose proof (P 11%nat). pose proof (P 12%nat). pose proof (P 13%nat). pose proof (P 14%nat). lra.
Qed.
(** Limits. *)
Lemma dm_h_lim e : is_lim (fun x => dm_h e (/ x)) p_infty 0.
Proof.
  apply (filterlim_comp _ _ _ (fun x => / x) (dm_h e) (Rbar_locally p_infty) (locally 0)).
  - apply (is_lim_inv (fun x => x) p_infty p_infty (is_lim_id p_infty)). discriminate.
  - replace 0 with (dm_h e 0) at 2 by (unfold dm_h; ring). apply (ex_derive_continuous (dm_h e)). unfold dm_h. auto_derive. exact I.
Qed.
Lemma ln_ratio_lim : is_lim (fun x => ln ((x + 1) / x)) p_infty 0.
Proof.
  apply (is_lim_ext_loc (fun x => ln (1 + / x))).
  { exists 0. intros x Hx. f_equal. field. lra. }
  apply (filterlim_comp _ _ _ (fun x => / x) (fun r => ln (1 + r)) (Rbar_locally p_infty) (locally 0)).
  - apply (is_lim_inv (fun x => x) p_infty p_infty (is_lim_id p_infty)). discriminate.
  - replace 0 with (ln (1 + 0)) at 2 by (rewrite Rplus_0_r; apply ln_1).
    apply (ex_derive_continuous (fun r => ln (1 + r))). auto_derive. lra.
Qed.
Lemma dm_D_lim e : is_lim (dm_D e) p_infty 0.
Proof.
  apply (is_lim_ext_loc (fun x => ln ((x + 1) / x) + dm_h e (/ (x + 1)) - dm_h e (/ x) - / x)).
  { exists 0. intros x Hx. unfold dm_D, dm_T. rewrite ln_div by lra. ring. }
  replace (Finite 0) with (Finite (0 + 0 - 0 - 0)) by (f_equal; ring).
  apply is_lim_minus'; [apply is_lim_minus'; [apply is_lim_plus'|]|].
  - apply ln_ratio_lim.
  - apply (is_lim_comp (fun y => dm_h e (/ y)) (fun x => x + 1) p_infty 0 p_infty); [apply dm_h_lim| |exists 0; intros; discriminate].
    apply (is_lim_plus (fun x => x) (fun _ => 1) p_infty p_infty 1 p_infty); [apply is_lim_id|apply is_lim_const|reflexivity].
  - apply dm_h_lim.
  - apply (is_lim_inv (fun x => x) p_infty p_infty (is_lim_id p_infty)). discriminate.
Qed.
Lemma dm_D_pos x : 0 < x -> 0 <= dm_D 0 x.
Proof.
  intros Hx. assert (Q : Rbar_le 0 (dm_D 0 x)); [|exact Q].
  apply (filterlim_le (F := Rbar_locally p_infty) (dm_D 0) (fun _ => dm_D 0 x) 0 (dm_D 0 x)); [|exact (dm_D_lim 0)|apply filterlim_const].
  exists x. intros y Hy. assert (- dm_D 0 x < - dm_D 0 y); [|lra].
  apply (incr_function_le (fun t => - dm_D 0 t) x y (fun t => - (dm_dT 0 (t + 1) - dm_dT 0 t + / t ^ 2))); try lra; try (cbn; lra).
  - intros t H1 H2. cbn in H1. apply (is_derive_opp (dm_D 0) t). apply dm_D_derive. lra.
  - intros t H1 H2. cbn in H1. pose proof (dm_D_num_0 t ltac:(lra)). lra.
Qed.
Lemma dm_D_neg x : 0 < x -> dm_D (3617 / 8160) x <= 0.
Proof.
  intros Hx. assert (Q : Rbar_le (dm_D (3617 / 8160) x) 0); [|exact Q].
  apply (filterlim_le (F := Rbar_locally p_infty) (fun _ => dm_D (3617 / 8160) x) (dm_D (3617 / 8160)) (dm_D (3617 / 8160) x) 0); [|apply filterlim_const|exact (dm_D_lim _)].
  exists x. intros y Hy. left.
  apply (incr_function_le (dm_D (3617 / 8160)) x y (fun t => dm_dT (3617 / 8160) (t + 1) - dm_dT (3617 / 8160) t + / t ^ 2)); try lra; try (cbn; lra).
  - intros t H1 H2. cbn in H1. apply dm_D_derive. lra.
  - intros t H1 H2. cbn in H1. pose proof (dm_D_num_1 t ltac:(lra)). lra.
Qed.
(** Gauss's sequence against the expansion at x + n + 1. *)
Lemma dm_telescope e x n : dm_T e (x + INR n + 1) = dm_T e x + sum_f_R0 (fun k => / (x + INR k)) n + sum_f_R0 (fun k => dm_D e (x + INR k)) n.
Proof.
  induction n as [|n IH].
  - cbn [sum_f_R0 INR]. rewrite Rplus_0_r. unfold dm_D. ring.
  - cbn [sum_f_R0]. rewrite S_INR. replace (x + (INR n + 1) + 1) with (x + INR n + 1 + 1) by ring.
    replace (x + (INR n + 1)) with (x + INR n + 1) by ring.
    assert (E : dm_T e (x + INR n + 1 + 1) = dm_T e (x + INR n + 1) + / (x + INR n + 1) + dm_D e (x + INR n + 1)) by (unfold dm_D; ring).
    rewrite E, IH. ring.
Qed.
Lemma dm_seq_lim e x : is_lim_seq (fun n => dm_T e (x + INR n + 1) - ln (INR n)) 0.
Proof.
  assert (A : is_lim_seq (fun n => x + INR n + 1) p_infty).
  { apply (is_lim_seq_ext (fun n => INR n + (x + 1))); [intro; ring|].
    apply (is_lim_seq_plus _ _ p_infty (x + 1) p_infty); [apply is_lim_seq_INR|apply is_lim_seq_const|reflexivity]. }
  apply (is_lim_seq_ext_loc (fun n => ln ((x + INR n + 1) / INR n) + dm_h e (/ (x + INR n + 1)))).
  { destruct (nfloor_ex (Rabs x)) as [N HN]; [apply Rabs_pos|]. exists (S (S N)). intros n Hn.
    assert (INR (S (S N)) <= INR n) by now apply le_INR. rewrite !S_INR in *. pose proof (pos_INR N).
    assert (- INR N - 1 <= x) by (pose proof (Rabs_maj2 x); lra).
    unfold dm_T. rewrite ln_div by lra. ring. }
  replace (Finite 0) with (Finite (0 + 0)) by (f_equal; ring). apply is_lim_seq_plus'.
  - apply (is_lim_seq_ext_loc (fun n => ln (1 + (x + 1) * / INR n))).
    { exists 1%nat. intros n Hn. f_equal. field. apply not_0_INR. lia. }
    assert (B : is_lim_seq (fun n => (x + 1) * / INR n) ((x + 1) * 0)).
    { apply (is_lim_seq_scal_l (fun n => / INR n) (x + 1) 0). apply (is_lim_seq_inv INR p_infty); [apply is_lim_seq_INR|discriminate]. }
    rewrite Rmult_0_r in B.
    apply (filterlim_comp _ _ _ (fun n => (x + 1) * / INR n) (fun r => ln (1 + r)) eventually (locally 0)); [exact B|].
    replace 0 with (ln (1 + 0)) at 2 by (rewrite Rplus_0_r; apply ln_1).
    apply (ex_derive_continuous (fun r => ln (1 + r))). auto_derive. lra.
  - apply (filterlim_comp _ _ _ (fun n => x + INR n + 1) (fun y => dm_h e (/ y)) eventually (Rbar_locally p_infty)); [exact A|apply dm_h_lim].
Qed.
Lemma sum_nonneg f n : (forall k, 0 <= f k) -> 0 <= sum_f_R0 f n.
Proof. intros H. induction n; cbn [sum_f_R0]; [apply H|]. pose proof (H (S n)). lra. Qed.
Lemma digamma_lower x psi : 0 < x -> is_digamma x psi -> dm_T 0 x <= psi.
Proof.
  intros Hx [_ L]. pose proof (is_lim_seq_plus' _ _ _ _ L (dm_seq_lim 0 x)) as L2. rewrite Rplus_0_r in L2.
  assert (Q : Rbar_le (dm_T 0 x) psi); [|exact Q].
  refine (is_lim_seq_le (fun _ => dm_T 0 x) _ (dm_T 0 x) psi _ (is_lim_seq_const _) L2).
  intro n. cbn beta. rewrite dm_telescope.
  assert (0 <= sum_f_R0 (fun k => dm_D 0 (x + INR k)) n); [|lra].
  apply sum_nonneg. intro k. apply dm_D_pos. pose proof (pos_INR k). lra.
Qed.
Lemma digamma_upper x psi : 0 < x -> is_digamma x psi -> psi <= dm_T (3617 / 8160) x.
Proof.
  intros Hx [_ L]. pose proof (is_lim_seq_plus' _ _ _ _ L (dm_seq_lim (3617 / 8160) x)) as L2. rewrite Rplus_0_r in L2.
  assert (Q : Rbar_le psi (dm_T (3617 / 8160) x)); [|exact Q].
  refine (is_lim_seq_le _ (fun _ => dm_T (3617 / 8160) x) psi (dm_T (3617 / 8160) x) _ L2 (is_lim_seq_const _)).
  intro n. cbn beta. rewrite dm_telescope.
  assert (0 <= sum_f_R0 (fun k => - dm_D (3617 / 8160) (x + INR k)) n).
  { apply sum_nonneg. intro k. pose proof (dm_D_neg (x + INR k) ltac:(pose proof (pos_INR k); lra)). lra. }
  assert (E : sum_f_R0 (fun k => - dm_D (3617 / 8160) (x + INR k)) n = - sum_f_R0 (fun k => dm_D (3617 / 8160) (x + INR k)) n).
  { clear. induction n; cbn [sum_f_R0]; [reflexivity|]. rewrite IHn. ring. }
  lra.
Qed.
Lemma sum_shift (f : nat -> R) n : sum_f_R0 (fun k => f (S k)) n = sum_f_R0 f n - f 0%nat + f (S n).
Proof. induction n; cbn [sum_f_R0] in *; [ring|]. rewrite IHn. ring. Qed.
Lemma gauss_seq_shift x n : ln (INR n) - sum_f_R0 (fun k => / (x + 1 + INR k)) n
  = ln (INR n) - sum_f_R0 (fun k => / (x + INR k)) n + / x - / (x + INR n + 1).
Proof.
  pose proof (sum_shift (fun k => / (x + INR k)) n) as E. cbn beta in E. change (INR 0) with 0 in E. rewrite Rplus_0_r in E.
  assert (E2 : sum_f_R0 (fun k => / (x + 1 + INR k)) n = sum_f_R0 (fun k => / (x + INR (S k))) n).
  { apply sum_eq. intros i _. f_equal. rewrite S_INR. ring. }
  rewrite E2, E. replace (x + INR (S n)) with (x + INR n + 1) by (rewrite S_INR; ring). ring.
Qed.
Lemma inv_seq_lim x : is_lim_seq (fun n => / (x + INR n + 1)) 0.
Proof.
  apply (is_lim_seq_inv _ p_infty); [|discriminate].
  apply (is_lim_seq_ext (fun n => INR n + (x + 1))); [intro; ring|].
  apply (is_lim_seq_plus _ _ p_infty (x + 1) p_infty); [apply is_lim_seq_INR|apply is_lim_seq_const|reflexivity].
Qed.
Lemma is_digamma_up x psi : is_digamma x psi -> is_digamma (x + 1) (psi + / x).
Proof.
  intros [N L]. split.
  - intro k. specialize (N (S k)). rewrite S_INR in N. replace (x + 1 + INR k) with (x + (INR k + 1)) by ring. exact N.
  - apply (is_lim_seq_ext (fun n => ln (INR n) - sum_f_R0 (fun k => / (x + INR k)) n + / x - / (x + INR n + 1))); [intro; symmetry; apply gauss_seq_shift|].
    replace (psi + / x) with (psi + / x - 0) by ring. apply is_lim_seq_minus'; [|apply inv_seq_lim].
    apply is_lim_seq_plus'; [exact L|apply is_lim_seq_const].
Qed.
Lemma is_digamma_down x psi : x <> 0 -> is_digamma (x + 1) psi -> is_digamma x (psi - / x).
Proof.
  intros X [N L]. split.
  - intros [|k]; [cbn; lra|]. specialize (N k). rewrite S_INR. replace (x + (INR k + 1)) with (x + 1 + INR k) by ring. exact N.
  - apply (is_lim_seq_ext (fun n => ln (INR n) - sum_f_R0 (fun k => / (x + 1 + INR k)) n - / x + / (x + INR n + 1))).
    { intro n. rewrite gauss_seq_shift. ring. }
    replace (psi - / x) with (psi - / x + 0) by ring. apply is_lim_seq_plus'; [|apply inv_seq_lim].
    apply is_lim_seq_minus'; [exact L|apply is_lim_seq_const].
Qed.
Lemma dm_T_e e x : 0 < x -> dm_T e x = dm_T 0 x + e * / x ^ 16.
Proof. intros Hx. unfold dm_T, dm_h. rewrite pow_inv. ring. Qed.
Lemma digamma_exists_pos x : 0 < x -> exists psi, is_digamma x psi.
Proof.
  intros Hx. set (u := fun n => dm_T 0 x + sum_f_R0 (fun k => dm_D 0 (x + INR k)) n).
  assert (XK : forall k, 0 < x + INR k) by (intro k; pose proof (pos_INR k); lra).
  destruct (ex_finite_lim_seq_incr u (dm_T (3617 / 8160) x)) as [l L].
  - intro n. unfold u. cbn [sum_f_R0]. pose proof (dm_D_pos (x + INR (S n)) (XK _)). lra.
  - intro n. unfold u. pose proof (dm_telescope 0 x n) as E0. pose proof (dm_telescope (3617 / 8160) x n) as E1.
    assert (0 <= sum_f_R0 (fun k => - dm_D (3617 / 8160) (x + INR k)) n).
    { apply sum_nonneg. intro k. pose proof (dm_D_neg (x + INR k) (XK k)). lra. }
    assert (E : sum_f_R0 (fun k => - dm_D (3617 / 8160) (x + INR k)) n = - sum_f_R0 (fun k => dm_D (3617 / 8160) (x + INR k)) n).
    { clear. induction n; cbn [sum_f_R0]; [reflexivity|]. rewrite IHn. ring. }
    rewrite (dm_T_e (3617 / 8160) (x + INR n + 1)) in E1 by (pose proof (XK n); lra).
    assert (0 < / (x + INR n + 1) ^ 16) by (apply Rinv_0_lt_compat, pow_lt; pose proof (XK n); lra). lra.
  - exists l. split; [intro k; pose proof (XK k); lra|].
    apply (is_lim_seq_ext (fun n => u n - (dm_T 0 (x + INR n + 1) - ln (INR n)))).
    { intro n. unfold u. rewrite dm_telescope. ring. }
    replace l with (l - 0) by ring. apply is_lim_seq_minus'; [exact L|apply dm_seq_lim].
Qed.
Lemma digamma_exists x : (forall k, x + INR k <> 0) -> exists psi, is_digamma x psi.
Proof.
  assert (H : forall n x, (forall k, x + INR k <> 0) -> 0 < x + INR n -> exists psi, is_digamma x psi).
  { induction n as [|n IH]; intros y N P.
    - cbn in P. apply digamma_exists_pos. lra.
    - destruct (IH (y + 1)) as [psi Hpsi].
      + intro k. specialize (N (S k)). rewrite S_INR in N. lra.
      + rewrite S_INR in P. lra.
      + exists (psi - / y). apply is_digamma_down; [|exact Hpsi]. specialize (N 0%nat). cbn in N. lra. }
  intros N. destruct (nfloor_ex (Rabs x)) as [n Hn]; [apply Rabs_pos|].
  apply (H (S n) x N). rewrite S_INR. pose proof (Rabs_maj2 x). lra.
Qed.
Lemma is_digamma_unique x a b : is_digamma x a -> is_digamma x b -> a = b.
Proof. intros [_ A] [_ B]. apply is_lim_seq_unique in A, B. rewrite A in B. now injection B. Qed.
Lemma digamma_tail_dm v x : digamma_tail v x = v + dm_T 0 x.
Proof.
  unfold digamma_tail, dm_T, dm_h. rewrite !lit_R. rops. unfold Rdiv. rewrite !Rmult_1_l. rewrite ?Rinv_1, ?Rmult_1_r. ring.
Qed.
Lemma sdigamma_accuracy fuel : forall x v psi, is_digamma x psi -> sdigamma fuel x = Some v -> v <= psi <= v + 6 / 10000000000000000.
Proof.
  assert (TL : forall x psi, 17 / 2 <= x -> is_digamma x psi -> dm_T 0 x <= psi <= dm_T 0 x + 6 / 10000000000000000).
  { intros x psi Hx D. split; [apply digamma_lower; [lra|exact D]|].
    eapply Rle_trans; [apply (digamma_upper x psi); [lra|exact D]|]. rewrite dm_T_e by lra. apply Rplus_le_compat_l.
    apply Rle_trans with (3617 / 8160 * / (17 / 2) ^ 16); [|lra]. apply Rmult_le_compat_l; [lra|].
    apply Rinv_le_contravar; [lra|]. apply pow_incr. lra. }
  induction fuel as [|n IH]; intros x v psi D E.
  - revert E. unfold sdigamma. cbn [digamma_loop]. rb. rewrite lit_R. rcase; [discriminate|].
    intro E. assert (v = 0 + dm_T 0 x) as -> by (rewrite <- digamma_tail_dm; symmetry; apply (f_equal (fun o => match o with Some u => u | None => v end)) in E; exact E). rewrite Rplus_0_l. apply TL; [lra|exact D].
  - destruct (Rlt_dec x (17 / 2)) as [L|L].
    + rewrite sdigamma_rec in E by exact L. destruct (sdigamma n (x + 1)) as [w|] eqn:W; [|discriminate]. injection E as <-.
      pose proof (IH _ _ _ (is_digamma_up x psi D) W) as H. unfold Rdiv at 1 3. rewrite !Rmult_1_l. lra.
    + revert E. unfold sdigamma. cbn [digamma_loop]. rb. rewrite lit_R. rcase; [lra|].
      intro E. assert (v = 0 + dm_T 0 x) as -> by (rewrite <- digamma_tail_dm; symmetry; apply (f_equal (fun o => match o with Some u => u | None => v end)) in E; exact E). rewrite Rplus_0_l. apply TL; [lra|exact D].
Qed.
