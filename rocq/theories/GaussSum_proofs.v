(** Gauss's summation theorem and the value of the hypergeometric function at one (hypergeometric.rs:73-92). *)
From Coq Require Import Arith Lia List Bool ZArith Reals Lra Psatz.
From Coquelicot Require Import Coquelicot.
From Verif Require Import Outcome Scalar RealOps Int_model Ode_model Special_model Stat_model.
From Verif Require Import Special_spec Stat_spec Discrete_proofs OdeOrder_proofs Continuous_proofs Normal_proofs Special_proofs GammaFun_proofs GammaDist_proofs StatExtra_proofs SpecialNew_proofs Stirling_proofs GammaAll_proofs BetaAcc_proofs TMoments_proofs TCdf_proofs.
Local Open Scope R_scope.

Section Gauss.
Variables (a b : R).
Hypothesis (Ha : 0 < a) (Hb : 0 < b).
Let T (c : R) (n : nat) : R := gauss_term a b c 1 n.
Lemma T_S c n : 0 < c -> T c (S n) = T c n * ((a + INR n) * (b + INR n) / ((c + INR n) * (INR n + 1))).
Proof. intros Hc. unfold T. rewrite gauss_term_S by exact Hc. pose proof (pos_INR n). field. split; lra. Qed.
Lemma T_pos c n : 0 < c -> 0 < T c n.
Proof.
  intros Hc. induction n as [|n IH]; [unfold T, gauss_term; cbn; lra|]. rewrite T_S by exact Hc. pose proof (pos_INR n).
  apply Rmult_lt_0_compat; [exact IH|]. apply Rdiv_lt_0_compat; apply Rmult_lt_0_compat; lra.
Qed.
Lemma T_shift c n : 0 < c -> T (c + 1) n = T c n * (c / (c + INR n)).
Proof.
  intros Hc. induction n as [|n IH]; [unfold T, gauss_term; cbn; field; lra|]. rewrite !T_S by lra. rewrite IH, S_INR. pose proof (pos_INR n). field. repeat split; lra.
Qed.
Lemma T_gauss c n : 0 < c -> c * (c - a - b) * T c n - (c - a) * (c - b) * T (c + 1) n = c * (INR n * T c n - INR (S n) * T c (S n)).
Proof. intros Hc. rewrite T_shift, T_S by exact Hc. rewrite S_INR. pose proof (pos_INR n). field. split; lra. Qed.
Lemma P_gauss c N : 0 < c ->
  c * (c - a - b) * sum_f_R0 (T c) N + c * (INR (S N) * T c (S N)) = (c - a) * (c - b) * sum_f_R0 (T (c + 1)) N.
Proof.
  intros Hc. induction N as [|N IH].
  - cbn [sum_f_R0]. pose proof (T_gauss c 0 Hc) as G. change (INR 0) with 0 in G. lra.
  - cbn [sum_f_R0]. pose proof (T_gauss c (S N) Hc) as G. lra.
Qed.
Lemma w_step c n : 0 < c -> INR (S n) * T c (S n) = INR n * T c n - T c n * ((INR n * (c - a - b) - a * b) / (c + INR n)).
Proof. intros Hc. rewrite T_S by exact Hc. rewrite S_INR. pose proof (pos_INR n). field. split; lra. Qed.
Lemma w_drop c : a + b < c -> exists n0, forall n, (n0 <= n)%nat -> INR (S n) * T c (S n) <= INR n * T c n - (c - a - b) / 2 * T c n.
Proof.
  intros Hc. destruct (nat_ceil ((2 * (a * b) + c * (c - a - b)) / (c - a - b))) as [n0 [H0 _]]. exists n0. intros n Hn. rewrite w_step by lra.
  pose proof (T_pos c n ltac:(lra)) as P. apply le_INR in Hn. pose proof (pos_INR n).
  assert (K : (c - a - b) / 2 <= (INR n * (c - a - b) - a * b) / (c + INR n)).
  { apply (Rle_div_r ((c - a - b) / 2) (INR n * (c - a - b) - a * b) (c + INR n)); [lra|]. assert (2 * (a * b) + c * (c - a - b) <= INR n * (c - a - b)); [|lra].
    assert (D : (2 * (a * b) + c * (c - a - b)) / (c - a - b) <= INR n) by lra. apply Rle_div_l in D; lra. }
  apply (Rmult_le_compat_l (T c n)) in K; lra.
Qed.
Lemma T_conv c : a + b < c -> exists s : R, is_lim_seq (sum_f_R0 (T c)) s.
Proof.
  intros Hc. destruct (w_drop c Hc) as [n0 W]. set (d := c - a - b) in *. assert (D : 0 < d) by (unfold d; lra).
  assert (B : forall m, sum_f_R0 (T c) (n0 + m) + 2 / d * (INR (S (n0 + m)) * T c (S (n0 + m))) <= sum_f_R0 (T c) n0 + 2 / d * (INR (S n0) * T c (S n0))).
  { induction m as [|m IH]; [rewrite Nat.add_0_r; lra|]. rewrite Nat.add_succ_r. cbn [sum_f_R0]. specialize (W (S (n0 + m)) ltac:(lia)).
    apply (Rmult_le_compat_l (2 / d)) in W; [|left; apply Rdiv_lt_0_compat; lra].
    replace (2 / d * (INR (S (n0 + m)) * T c (S (n0 + m)) - d / 2 * T c (S (n0 + m)))) with (2 / d * (INR (S (n0 + m)) * T c (S (n0 + m))) - T c (S (n0 + m))) in W by (field; lra). lra. }
  destruct (ex_finite_lim_seq_incr (sum_f_R0 (T c)) (sum_f_R0 (T c) n0 + 2 / d * (INR (S n0) * T c (S n0)))) as [s Hs].
  - intros n. cbn [sum_f_R0]. pose proof (T_pos c (S n) ltac:(lra)). lra.
  - intros n. specialize (B n). 
    assert (M : sum_f_R0 (T c) n <= sum_f_R0 (T c) (n0 + n)).
    { rewrite Nat.add_comm. generalize n0. clear - Hc Ha Hb. induction n0 as [|k IH]; [rewrite Nat.add_0_r; lra|]. rewrite Nat.add_succ_r. cbn [sum_f_R0]. pose proof (T_pos c (S (n + k)) ltac:(lra)). lra. }
    assert (0 <= 2 / d * (INR (S (n0 + n)) * T c (S (n0 + n)))).
    { apply Rmult_le_pos; [left; apply Rdiv_lt_0_compat; lra|]. apply Rmult_le_pos; [apply pos_INR|]. left. apply T_pos. lra. }
    lra.
  - now exists s.
Qed.
Lemma w_lim c : a + b < c -> is_lim_seq (fun n => INR (S n) * T c (S n)) 0.
Proof.
  intros Hc. destruct (w_drop c Hc) as [n0 W]. destruct (T_conv c Hc) as [s Hs].
  destruct (ex_finite_lim_seq_decr (fun n => INR (n + n0) * T c (n + n0)) 0) as [L HL].
  - intros n. specialize (W (n + n0)%nat ltac:(lia)). change (S n + n0)%nat with (S (n + n0)). pose proof (T_pos c (n + n0) ltac:(lra)).
    assert (0 <= (c - a - b) / 2 * T c (n + n0)) by (apply Rmult_le_pos; lra). lra.
  - intros n. apply Rmult_le_pos; [apply pos_INR|]. left. apply T_pos. lra.
  - apply (is_lim_seq_incr_n (fun n => INR n * T c n)) in HL. apply is_lim_seq_incr_1 in HL. replace 0 with L; [exact HL|].
    assert (L0 : 0 <= L).
    { apply (is_lim_seq_le (fun _ => 0) (fun n => INR (S n) * T c (S n)) 0 L); [intros n; apply Rmult_le_pos; [apply pos_INR|left; apply T_pos; lra]|apply is_lim_seq_const|exact HL]. }
    apply Rle_antisym; [|exact L0].
    assert (Wd : forall n m, (n0 <= n)%nat -> INR (n + m) * T c (n + m) <= INR n * T c n).
    { intros n m Hn. induction m as [|m IH]; [rewrite Nat.add_0_r; lra|]. rewrite Nat.add_succ_r. specialize (W (n + m)%nat ltac:(lia)). pose proof (T_pos c (n + m) ltac:(lra)).
      assert (0 <= (c - a - b) / 2 * T c (n + m)) by (apply Rmult_le_pos; lra). lra. }
    assert (WL : forall n, (n0 <= n)%nat -> L <= INR n * T c n).
    { intros n Hn. apply (is_lim_seq_incr_1 (fun n => INR n * T c n)) in HL. apply (is_lim_seq_incr_n (fun k => INR k * T c k) n) in HL.
      apply (is_lim_seq_le (fun k => INR (k + n) * T c (k + n)) (fun _ => INR n * T c n) L (INR n * T c n)); [intros k; rewrite Nat.add_comm; now apply Wd|exact HL|apply is_lim_seq_const]. }
    assert (PD : forall n m, (n0 <= n)%nat -> (0 < n)%nat -> INR m * L / INR (n + m) <= sum_f_R0 (T c) (n + m) - sum_f_R0 (T c) n).
    { intros n m Hn Hn'. apply lt_INR in Hn'. change (INR 0) with 0 in Hn'. induction m as [|m IH]; [rewrite Nat.add_0_r; change (INR 0) with 0; unfold Rdiv; lra|].
      rewrite Nat.add_succ_r. cbn [sum_f_R0]. specialize (WL (S (n + m)) ltac:(lia)). rewrite !S_INR in *. rewrite plus_INR in *. pose proof (pos_INR m).
      set (x := INR n) in *. set (y := INR m) in *. set (t := T c (S (n + m))) in *.
      assert (A1 : L / (x + y + 1) <= t) by (apply Rle_div_l; lra).
      assert (A2 : (y + 1) * L / (x + y + 1) <= y * L / (x + y) + L / (x + y + 1)).
      { replace ((y + 1) * L / (x + y + 1)) with (y * L * / (x + y + 1) + L / (x + y + 1)) by (field; lra). apply Rplus_le_compat_r.
        unfold Rdiv. apply Rmult_le_compat_l; [apply Rmult_le_pos; lra|]. apply Rinv_le_contravar; lra. }
      lra. }
    assert (Hd : is_lim_seq (fun n => sum_f_R0 (T c) (n + n) - sum_f_R0 (T c) n) 0).
    { replace 0 with (s - s) by ring. apply is_lim_seq_minus'; [|exact Hs].
      apply (is_lim_seq_subseq (sum_f_R0 (T c)) s (fun n => (n + n)%nat)); [|exact Hs]. apply eventually_subseq. intros n. lia. }
    assert (L / 2 <= 0); [|lra].
    refine (is_lim_seq_le_loc (fun _ => L / 2) (fun n => sum_f_R0 (T c) (n + n) - sum_f_R0 (T c) n) (L / 2) 0 _ (is_lim_seq_const _) Hd).
    exists (S n0). intros n Hn. specialize (PD n n ltac:(lia) ltac:(lia)). rewrite plus_INR in PD.
    assert (X : 0 < INR n) by (apply (lt_INR 0); lia). replace (INR n * L / (INR n + INR n)) with (L / 2) in PD by (field; lra). exact PD.
Qed.
Lemma S_step c (s : R) : a + b < c -> is_lim_seq (sum_f_R0 (T c)) s ->
  is_lim_seq (sum_f_R0 (T (c + 1))) (c * (c - a - b) / ((c - a) * (c - b)) * s).
Proof.
  intros Hc Hs. pose proof (w_lim c Hc) as W.
  apply (is_lim_seq_ext (fun N => c * (c - a - b) / ((c - a) * (c - b)) * sum_f_R0 (T c) N + c / ((c - a) * (c - b)) * (INR (S N) * T c (S N)))).
  - intros N. pose proof (P_gauss c N ltac:(lra)) as P.
    replace (sum_f_R0 (T (c + 1)) N) with ((c - a) * (c - b) * sum_f_R0 (T (c + 1)) N / ((c - a) * (c - b))) by (field; lra).
    rewrite <- P. field. lra.
  - replace (c * (c - a - b) / ((c - a) * (c - b)) * s) with (c * (c - a - b) / ((c - a) * (c - b)) * s + c / ((c - a) * (c - b)) * 0) by ring.
    apply is_lim_seq_plus'; [exact (is_lim_seq_scal_l _ (c * (c - a - b) / ((c - a) * (c - b))) s Hs)|exact (is_lim_seq_scal_l _ (c / ((c - a) * (c - b))) 0 W)].
Qed.
Lemma S_iter c (s : R) n : a + b < c -> is_lim_seq (sum_f_R0 (T c)) s ->
  is_lim_seq (sum_f_R0 (T (c + INR n))) (rising c n * rising (c - a - b) n / (rising (c - a) n * rising (c - b) n) * s).
Proof.
  intros Hc Hs. induction n as [|n IH].
  - cbn [rising]. change (INR 0) with 0. rewrite Rplus_0_r. replace (1 * 1 / (1 * 1) * s) with s by field. exact Hs.
  - apply S_step in IH; [|pose proof (pos_INR n); lra]. rewrite S_INR. replace (c + (INR n + 1)) with (c + INR n + 1) by ring. cbn [rising]. pose proof (pos_INR n).
    pose proof (Stirling_proofs.rising_pos (c - a) n ltac:(lra)). pose proof (Stirling_proofs.rising_pos (c - b) n ltac:(lra)).
    match goal with H : is_lim_seq _ (Finite ?x) |- is_lim_seq _ (Finite ?y) => replace y with x; [exact H|] end. field. repeat split; lra.
Qed.
(** The sums tend to one when c grows. *)
Lemma T_decay c n k : 0 < c -> (0 < k)%nat -> T (c + INR n) k <= T c k * (c / (c + INR n)).
Proof.
  intros Hc Hk. apply (le_INR 1) in Hk. change (INR 1) with 1 in Hk. induction n as [|n IH].
  - change (INR 0) with 0. rewrite Rplus_0_r. replace (c / c) with 1 by (field; lra). lra.
  - pose proof (pos_INR n). rewrite S_INR. replace (c + (INR n + 1)) with (c + INR n + 1) by ring. rewrite T_shift by lra. pose proof (T_pos (c + INR n) k ltac:(lra)).
    apply Rle_trans with (T (c + INR n) k * ((c + INR n) / (c + INR n + 1))).
    + apply Rmult_le_compat_l; [lra|]. unfold Rdiv. apply Rmult_le_compat_l; [lra|]. apply Rinv_le_contravar; lra.
    + apply (Rmult_le_compat_r ((c + INR n) / (c + INR n + 1))) in IH; [|left; apply Rdiv_lt_0_compat; lra].
      eapply Rle_trans; [exact IH|]. right. field. lra.
Qed.
Lemma S_bounds c (s : R) n (r : R) : a + b < c -> is_lim_seq (sum_f_R0 (T c)) s -> is_lim_seq (sum_f_R0 (T (c + INR n))) r ->
  1 <= r <= 1 + (s - 1) * (c / (c + INR n)).
Proof.
  intros Hc Hs Hr. pose proof (pos_INR n) as Pn. split.
  - apply (is_lim_seq_le (fun _ => 1) (sum_f_R0 (T (c + INR n))) 1 r); [|apply is_lim_seq_const|exact Hr].
    intros N. induction N as [|N IH]; [unfold T, gauss_term; cbn; lra|]. cbn [sum_f_R0]. pose proof (T_pos (c + INR n) (S N) ltac:(lra)). lra.
  - apply (is_lim_seq_le (sum_f_R0 (T (c + INR n))) (fun N => 1 + (sum_f_R0 (T c) N - 1) * (c / (c + INR n))) r (1 + (s - 1) * (c / (c + INR n)))); [|exact Hr|].
    + intros N. induction N as [|N IH]; [unfold T, gauss_term; cbn; lra|]. cbn [sum_f_R0]. pose proof (T_decay c n (S N) ltac:(lra) ltac:(lia)). lra.
    + apply is_lim_seq_plus'; [apply is_lim_seq_const|]. apply (is_lim_seq_scal_r _ _ (Finite (s - 1))). apply is_lim_seq_minus'; [exact Hs|apply is_lim_seq_const].
Qed.
End Gauss.

(** The quotient of two beta functions tends to one. *)
Lemma beta_mono p q d B C : 0 < p -> 0 < q -> 0 <= d -> euler_beta p q B -> euler_beta (p + d) q C -> C <= B.
Proof.
  intros Hp Hq Hd HB HC. apply (integral_01_le (fun t => Rpower t (p + d - 1) * Rpower (1 - t) (q - 1)) (fun t => Rpower t (p - 1) * Rpower (1 - t) (q - 1))); [|exact HC|exact HB].
  intros t Ht. apply Rmult_le_compat_r; [left; apply exp_pos|]. unfold Rpower. assert (EM : forall u v, u <= v -> exp u <= exp v) by (intros u v [H| ->]; [left; now apply exp_increasing|lra]). apply EM. replace ((p + d - 1) * ln t) with ((p - 1) * ln t + d * ln t) by ring.
  assert (ln t <= 0) by (rewrite <- ln_1; apply ln_le; lra). assert (d * ln t <= d * 0) by (apply Rmult_le_compat_l; lra). lra.
Qed.
Lemma rising_ratio_lim p q m : 0 < p -> 0 < q -> is_lim_seq (fun n => rising (p + INR n) m / rising (p + INR n + q) m) 1.
Proof.
  intros Hp Hq. induction m as [|m IH].
  - cbn [rising]. apply (is_lim_seq_ext (fun _ => 1)); [intros; field|apply is_lim_seq_const].
  - apply (is_lim_seq_ext (fun n => rising (p + INR n) m / rising (p + INR n + q) m * (1 - q * / (INR n + (p + q + INR m))))).
    + intros n. cbn [rising]. pose proof (pos_INR n). pose proof (pos_INR m). pose proof (Stirling_proofs.rising_pos (p + INR n + q) m ltac:(lra)). field. split; lra.
    + replace 1 with (1 * (1 - q * 0)) at 1 by ring. apply is_lim_seq_mult'; [exact IH|]. apply is_lim_seq_minus'; [apply is_lim_seq_const|].
      apply (is_lim_seq_scal_l _ _ (Finite 0)).
      pose proof (seq_of_lim _ _ 0 (lim_inv_shift (p + q + INR m))) as L. apply (is_lim_seq_ext (fun n => / (0 + INR n + (p + q + INR m)))); [intros; f_equal; ring|exact L].
Qed.
Theorem gauss_sum a b c B1 B2 : 0 < a -> 0 < b -> a + b < c -> euler_beta (c - a - b) a B1 -> euler_beta (c - a) a B2 ->
  is_series (gauss_term a b c 1) (B1 / B2).
Proof.
  intros Ha Hb Hc H1 H2. destruct (T_conv a b Ha Hb c Hc) as [s Hs]. pose proof (euler_beta_pos _ _ _ H1) as P1. pose proof (euler_beta_pos _ _ _ H2) as P2.
  assert (E : s * (B2 / B1) = 1).
  { destruct (nat_ceil b) as [m [Hm _]]. set (p := c - a - b) in *. assert (Pp : 0 < p) by (unfold p; lra).
    assert (K : forall n, rising (p + INR n) m / rising (p + INR n + a) m <= s * (B2 / B1) <= 1 + (s - 1) * (c / (c + INR n))).
    { intros n. pose proof (pos_INR n) as Pn. pose proof (S_iter a b Ha Hb c s n Hc Hs) as Hr. destruct (S_bounds a b Ha Hb c s n _ Hc Hs Hr) as [L U].
      fold p in L, U. set (r := rising c n * rising p n / (rising (c - a) n * rising (c - b) n) * s) in *.
      pose proof (euler_beta_rising _ _ _ n Pp Ha H1) as G1. pose proof (euler_beta_rising (c - a) a B2 n ltac:(lra) Ha H2) as G2.
      replace (p + a) with (c - b) in G1 by (unfold p; ring). replace (c - a + a) with c in G2 by ring.
      set (b1 := rising p n / rising (c - b) n * B1) in *. set (b2 := rising (c - a) n / rising c n * B2) in *.
      assert (E : s * (B2 / B1) = r * (b2 / b1)).
      { unfold r, b1, b2. pose proof (Stirling_proofs.rising_pos (c - a) n ltac:(lra)). pose proof (Stirling_proofs.rising_pos (c - b) n ltac:(lra)).
        pose proof (Stirling_proofs.rising_pos c n ltac:(lra)). pose proof (Stirling_proofs.rising_pos p n ltac:(lra)). field. repeat split; lra. }
      rewrite E. pose proof (euler_beta_pos _ _ _ G1) as Q1. pose proof (euler_beta_pos _ _ _ G2) as Q2.
      assert (U2 : b2 / b1 <= 1).
      { apply (Rle_div_l b2 1 b1); [exact Q1|]. rewrite Rmult_1_l. apply (beta_mono (p + INR n) a b); [lra|exact Ha|lra|exact G1|]. replace (p + INR n + b) with (c - a + INR n) by (unfold p; ring). exact G2. }
      assert (L2 : rising (p + INR n) m / rising (p + INR n + a) m <= b2 / b1).
      { pose proof (euler_beta_rising (p + INR n) a b1 m ltac:(lra) Ha G1) as G3. apply (Rle_div_r (rising (p + INR n) m / rising (p + INR n + a) m) b2 b1); [exact Q1|].
        apply (beta_mono (c - a + INR n) a (INR m - b)); [lra|exact Ha|lra|exact G2|]. replace (c - a + INR n + (INR m - b)) with (p + INR n + INR m) by (unfold p; ring). exact G3. }
      assert (0 < b2 / b1) by (now apply Rdiv_lt_0_compat). split.
      - eapply Rle_trans; [exact L2|]. rewrite <- (Rmult_1_l (b2 / b1)) at 1. apply Rmult_le_compat_r; lra.
      - eapply Rle_trans; [|exact U]. rewrite <- (Rmult_1_r r) at 2. apply Rmult_le_compat_l; lra. }
    apply Rle_antisym.
    - apply (is_lim_seq_le (fun _ => s * (B2 / B1)) (fun n => 1 + (s - 1) * (c / (c + INR n))) (s * (B2 / B1)) 1); [intros n; apply K|apply is_lim_seq_const|].
      assert (E1 : 1 + (s - 1) * (c * 0) = 1) by ring. refine (eq_ind _ (fun u : R => is_lim_seq _ (Finite u)) _ _ E1). apply is_lim_seq_plus'; [apply is_lim_seq_const|]. apply (is_lim_seq_scal_l _ _ (Finite (c * 0))).
      apply (is_lim_seq_scal_l (fun n => / (c + INR n)) c (Finite 0)). pose proof (seq_of_lim _ _ 0 (lim_inv_shift c)) as L. apply (is_lim_seq_ext (fun n => / (0 + INR n + c))); [intros; f_equal; ring|exact L].
    - apply (is_lim_seq_le (fun n => rising (p + INR n) m / rising (p + INR n + a) m) (fun _ => s * (B2 / B1)) 1 (s * (B2 / B1))); [intros n; apply K|now apply rising_ratio_lim|apply is_lim_seq_const]. }
  replace (B1 / B2) with s; [|replace s with (s * (B2 / B1) * (B1 / B2)) by (field; lra); rewrite E; ring].
  exact (is_lim_seq_ext _ _ (Finite s) (fun n => eq_sym (sum_n_Reals (gauss_term a b c 1) n)) Hs).
Qed.
Lemma sf21_one_acc k a b c F : 0 < a -> 0 < b -> a + b < c -> is_series (gauss_term a b c 1) F ->
  exists v, sf21 k a b c 1 = Ret (Some v) /\ Rabs (v - F) <= 21 / 1000000000000 * F.
Proof.
  intros Ha Hb Hc HF. destruct (beta_exists (c - a - b) a ltac:(lra) Ha) as [B1 H1]. destruct (beta_exists (c - a) a ltac:(lra) Ha) as [B2 H2].
  pose proof (gauss_sum a b c B1 B2 Ha Hb Hc H1 H2) as G. apply is_series_unique in HF. apply is_series_unique in G. rewrite HF in G. rewrite G. clear HF G.
  destruct (gamma_exists c ltac:(lra)) as [g1 G1]. destruct (gamma_exists (c - a - b) ltac:(lra)) as [g2 G2]. destruct (gamma_exists (c - a) ltac:(lra)) as [g3 G3]. destruct (gamma_exists (c - b) ltac:(lra)) as [g4 G4].
  destruct (gamma_exists a Ha) as [ga Ga].
  pose proof (beta_gamma (c - a - b) a B1 g2 ga g4 ltac:(lra) Ha H1 G2 Ga ltac:(replace (c - a - b + a) with (c - b) by ring; exact G4)) as E1.
  pose proof (beta_gamma (c - a) a B2 g3 ga g1 ltac:(lra) Ha H2 G3 Ga ltac:(replace (c - a + a) with c by ring; exact G1)) as E2.
  pose proof (euler_gamma_pos _ _ G1). pose proof (euler_gamma_pos _ _ G2). pose proof (euler_gamma_pos _ _ G3). pose proof (euler_gamma_pos _ _ G4). pose proof (euler_gamma_pos _ _ Ga).
  assert (EB : B1 / B2 = g1 * g2 / (g3 * g4)) by (rewrite E1, E2; field; repeat split; lra). rewrite EB.
  assert (I : forall z g, 0 < z -> euler_gamma z g -> is_gamma z g) by (intros; now apply euler_is_gamma).
  destruct (sgamma_accuracy _ _ (I c g1 ltac:(lra) G1)) as (v1 & V1 & A1). destruct (sgamma_accuracy _ _ (I (c - a - b) g2 ltac:(lra) G2)) as (v2 & V2 & A2).
  destruct (sgamma_accuracy _ _ (I (c - a) g3 ltac:(lra) G3)) as (v3 & V3 & A3). destruct (sgamma_accuracy _ _ (I (c - b) g4 ltac:(lra) G4)) as (v4 & V4 & A4).
  destruct (rel4 v1 v2 v3 v4 g1 g2 g3 g4 ltac:(lra) ltac:(lra) ltac:(lra) ltac:(lra) A1 A2 A3 A4) as (e & Be & Ee).
  exists (v1 * v2 / (v3 * v4)). split.
  - unfold sf21. rewrite lit_half'. rb. rops. repeat (rcase; try lra). rewrite V1, V2, V3, V4. reflexivity.
  - rewrite Ee. set (q := g1 * g2 / (g3 * g4)). assert (0 < q) by (apply Rdiv_lt_0_compat; now apply Rmult_lt_0_compat).
    replace (q * (1 + e) - q) with (q * e) by ring. rewrite Rabs_mult, (Rabs_pos_eq q) by lra. rewrite (Rmult_comm _ q). apply Rmult_le_compat_l; lra.
Qed.
