(** Existence of the gamma function, and accuracy of the crate's gamma and ln_gamma on their whole domains. *)
From Coq Require Import Arith Lia List Bool ZArith Reals Lra Psatz.
From Coquelicot Require Import Coquelicot.
From Verif Require Import Outcome Scalar RealOps Elem_model Int_model Ode_model Special_model.
From Verif Require Import Stat_spec Special_spec Discrete_proofs OdeOrder_proofs Continuous_proofs Normal_proofs Special_proofs GammaFun_proofs SpecialNew_proofs.
From Verif Require Import Stirling_proofs Lanczos_proofs LanczosAcc_proofs LnGammaAcc_proofs Reflection_proofs.
Local Open Scope R_scope.

(** ** Existence *)
Lemma mono_lim (F : R -> R) T M : (forall x y, T <= x -> x <= y -> F x <= F y) -> (forall x, T <= x -> F x <= M) ->
  exists l : R, is_lim F p_infty l.
Proof.
  intros Mo B.
  destruct (ex_finite_lim_seq_incr (fun n => F (T + INR n)) M) as [l Hl].
  - intros n. apply Mo; [pose proof (pos_INR n); lra|]. rewrite S_INR. lra.
  - intros n. apply B. pose proof (pos_INR n). lra.
  - exists l. apply is_lim_spec. intros eps. apply is_lim_seq_spec in Hl.
    assert (UB : forall x, T <= x -> F x <= l).
    { intros x Hx. destruct (nfloor_ex (x - T) ltac:(lra)) as [n Hn].
      assert (Q : Rbar_le (F x) l); [|exact Q].
      apply (is_lim_seq_le_loc (fun _ => F x) (fun n => F (T + INR n)) (F x) l); [|apply is_lim_seq_const|apply is_lim_seq_spec; exact Hl].
      exists (S n). intros m Hm. apply Mo; [assumption|]. apply le_INR in Hm. rewrite S_INR in Hm. lra. }
    destruct (Hl eps) as [N HN]. exists (T + INR N). intros x Hx. specialize (HN N (le_n N)).
    pose proof (pos_INR N). assert (F (T + INR N) <= F x) by (apply Mo; lra). pose proof (UB x ltac:(lra)).
    apply Rabs_def2 in HN. apply Rabs_def1; lra.
Qed.
Lemma gamma_exists z : 0 < z -> exists g, euler_gamma z g.
Proof.
  intros Hz. set (F := fun y => Rpower y z * exp (- y) * (PSeries (lgc z) y / z)).
  assert (DF : forall x, 0 < x -> is_derive F x (Rpower x (z - 1) * exp (- x))) by (intros x Hx; now apply lg_derive).
  assert (Mo : forall x y, 0 < x -> x <= y -> F x <= F y).
  { intros x y Hx Hxy. destruct (Req_dec x y) as [->|N]; [lra|].
    destruct (MVT_gen F x y (fun t => Rpower t (z - 1) * exp (- t))) as [c [Hc E]].
    - intros t Ht. rewrite Rmin_left, Rmax_right in Ht by lra. apply DF. lra.
    - intros t Ht. rewrite Rmin_left, Rmax_right in Ht by lra. apply continuity_pt_filterlim. apply (ex_derive_continuous F). eexists. apply DF. lra.
    - pose proof (gint_pos z c). assert (0 <= Rpower c (z - 1) * exp (- c) * (y - x)) by (apply Rmult_le_pos; lra). lra. }
  assert (L0 : filterlim F (at_right 0) (locally 0)).
  { apply (filterlim_Rmult (fun y => Rpower y z * exp (- y)) (fun y => PSeries (lgc z) y / z) 0 (PSeries (lgc z) 0 / z) 0); [now apply gterm_lim_0| |ring].
    apply cont_right; [|reflexivity]. unfold Rdiv.
    apply (continuous_mult (PSeries (lgc z)) (fun _ => / z)); [|apply continuous_const].
    apply (ex_derive_continuous (PSeries (lgc z))). apply ex_derive_PSeries. rewrite lgc_radius by assumption. exact I. }
  assert (Small : exists T, 0 < T /\ forall t, T <= t -> Rpower t (z + 1) * exp (- t) <= 1).
  { pose proof (gterm_lim_inf (z + 1)) as G. apply is_lim_spec in G. destruct (G posreal_one) as [M HM].
    exists (Rmax M 0 + 1). pose proof (Rmax_l M 0). pose proof (Rmax_r M 0). split; [lra|]. intros t Ht. specialize (HM t ltac:(lra)).
    cbn in HM. apply Rabs_def2 in HM. lra. }
  destruct Small as (T & T0 & HT).
  destruct (mono_lim F T (F T + / T)) as [l Hl].
  - intros x y Hx Hy. apply Mo; lra.
  - intros x Hx. destruct (Req_dec T x) as [->|N]; [pose proof (Rinv_0_lt_compat x ltac:(lra)); lra|].
    assert (D : forall t, 0 < t -> is_derive (fun t => F t + / t) t (Rpower t (z - 1) * exp (- t) + - / (t * t))).
    { intros t Ht. apply (is_derive_plus F (fun t => / t)); [now apply DF|]. auto_derive; [lra|]. match goal with |- ?a = ?b => change (@eq R a b) end. field. lra. }
    destruct (MVT_gen (fun t => F t + / t) T x (fun t => Rpower t (z - 1) * exp (- t) + - / (t * t))) as [c [Hc E]].
    + intros t Ht. rewrite Rmin_left, Rmax_right in Ht by lra. apply D. lra.
    + intros t Ht. rewrite Rmin_left, Rmax_right in Ht by lra. apply continuity_pt_filterlim. apply (ex_derive_continuous (fun t => F t + / t)). eexists. apply D. lra.
    + rewrite Rmin_left, Rmax_right in Hc by lra. specialize (HT c ltac:(lra)).
      replace (Rpower c (z + 1)) with (Rpower c (z - 1) * (c * c)) in HT.
      2:{ replace (c * c) with (Rpower c 2); [rewrite <- Rpower_plus; f_equal; ring|]. replace 2 with (1 + 1) by ring. rewrite Rpower_plus, Rpower_1 by lra. reflexivity. }
      assert (Pc : 0 < c * c) by (apply Rmult_lt_0_compat; lra).
      assert (Rpower c (z - 1) * exp (- c) <= / (c * c)).
      { apply Rmult_le_reg_r with (c * c); [assumption|]. rewrite Rinv_l by lra. lra. }
      assert ((Rpower c (z - 1) * exp (- c) + - / (c * c)) * (x - T) <= 0).
      { assert (0 <= (/ (c * c) - Rpower c (z - 1) * exp (- c)) * (x - T)) by (apply Rmult_le_pos; lra). lra. }
      pose proof (Rinv_0_lt_compat x ltac:(lra)). lra.
  - exists l. exists F. split; [exact DF|]. split; [exact L0|exact Hl].
Qed.

(** ** The extension to negative arguments *)
Lemma euler_is_gamma z g : 0 < z -> euler_gamma z g -> is_gamma z g.
Proof.
  intros Hz Hg. split; [intros k; pose proof (pos_INR k); lra|]. exists O. change (INR 0) with 0. cbn [rising]. rewrite Rplus_0_r, Rmult_1_l. split; assumption.
Qed.
Lemma rising_nz z n : (forall k, z + INR k <> 0) -> rising z n <> 0.
Proof. intros H. induction n; cbn [rising]; [lra|]. apply Rmult_integral_contrapositive. split; [assumption|apply H]. Qed.
Lemma is_gamma_euler z g : 0 < z -> is_gamma z g -> euler_gamma z g.
Proof.
  intros Hz [N [n [P E]]]. destruct (gamma_exists z Hz) as [h Hh].
  pose proof (euler_gamma_rising z h n Hz Hh) as E'. pose proof (euler_gamma_unique _ _ _ E E') as Q.
  apply Rmult_eq_reg_l in Q; [|now apply rising_nz]. subst. assumption.
Qed.
Lemma rising_head z n : rising z (S n) = z * rising (z + 1) n.
Proof.
  induction n as [|n IH]; [cbn; ring|]. change (rising z (S (S n))) with (rising z (S n) * (z + INR (S n))). rewrite IH.
  change (rising (z + 1) (S n)) with (rising (z + 1) n * (z + 1 + INR n)). rewrite S_INR. ring.
Qed.
Lemma is_gamma_S z g : is_gamma z g -> is_gamma (z + 1) (z * g).
Proof.
  intros [N [n [P E]]]. split; [intros k; specialize (N (S k)); rewrite S_INR in N; lra|]. exists n. split; [lra|].
  replace (z + 1 + INR n) with (z + INR n + 1) by ring.
  replace (rising (z + 1) n * (z * g)) with (rising z (S n) * g) by (rewrite rising_head; ring). cbn [rising].
  replace (rising z n * (z + INR n) * g) with ((z + INR n) * (rising z n * g)) by ring. now apply euler_gamma_S.
Qed.
Lemma is_gamma_pred z g : z <> 0 -> is_gamma (z + 1) g -> is_gamma z (g / z).
Proof.
  intros Hz [N [n [P E]]]. split.
  - intros [|k]; [change (INR 0) with 0; lra|]. rewrite S_INR. specialize (N k). lra.
  - exists (S n). rewrite S_INR. split; [lra|]. replace (z + (INR n + 1)) with (z + 1 + INR n) by ring. rewrite rising_head.
    replace (z * rising (z + 1) n * (g / z)) with (rising (z + 1) n * g) by (field; assumption). assumption.
Qed.
Lemma is_gamma_exists z : (forall k, z + INR k <> 0) -> exists g, is_gamma z g.
Proof.
  intros H. assert (X : exists n, 0 < z + INR n).
  { destruct (nfloor_ex (Rabs z) (Rabs_pos z)) as [n Hn]. exists (S n). rewrite S_INR. pose proof (Rabs_maj2 z). lra. }
  destruct X as [n Hn]. destruct (gamma_exists _ Hn) as [g Hg]. exists (g / rising z n). split; [exact H|]. exists n. split; [exact Hn|].
  replace (rising z n * (g / rising z n)) with g by (field; now apply rising_nz). exact Hg.
Qed.
Lemma euler_gamma_shift_any a n m g : 0 < a + INR n -> 0 < a + INR m -> (n <= m)%nat -> euler_gamma (a + INR n) (rising a n * g) -> euler_gamma (a + INR m) (rising a m * g).
Proof.
  intros Hn Hm L E. induction L as [|m L IH]; [assumption|]. assert (INR n <= INR m) by (now apply le_INR). specialize (IH ltac:(lra)).
  rewrite S_INR. cbn [rising]. replace (a + (INR m + 1)) with (a + INR m + 1) by ring.
  replace (rising a m * (a + INR m) * g) with ((a + INR m) * (rising a m * g)) by ring. apply euler_gamma_S; [lra|assumption].
Qed.
Lemma is_gamma_unique z g h : is_gamma z g -> is_gamma z h -> g = h.
Proof.
  intros [N [n [P E]]] [_ [m [P' E']]]. set (k := Nat.max n m).
  assert (INR n <= INR k) by (apply le_INR; unfold k; lia). assert (INR m <= INR k) by (apply le_INR; unfold k; lia).
  pose proof (euler_gamma_shift_any z n k g P ltac:(lra) ltac:(unfold k; lia) E) as A.
  pose proof (euler_gamma_shift_any z m k h P' ltac:(lra) ltac:(unfold k; lia) E') as B.
  pose proof (euler_gamma_unique _ _ _ A B) as Q. apply Rmult_eq_reg_l in Q; [assumption|]. now apply rising_nz.
Qed.
(** Reflection for every non-integer. *)
Lemma is_gamma_reflection z g h : is_gamma z g -> is_gamma (1 - z) h -> g * h * sin (PI * z) = PI.
Proof.
  assert (Neg : forall n z g h, 0 < z + INR n < 1 -> is_gamma z g -> is_gamma (1 - z) h -> g * h * sin (PI * z) = PI).
  { clear. induction n as [|n IH]; intros z g h Hz Hg Hh.
    - change (INR 0) with 0 in Hz. apply (gamma_reflection z g h); [lra|apply is_gamma_euler; [lra|assumption]|apply is_gamma_euler; [lra|assumption]].
    - rewrite S_INR in Hz.
      assert (Nz : z <> 0). { intros ->. destruct Hg as [N _]. apply (N O). change (INR 0) with 0. ring. }
      assert (Hh' : is_gamma (1 - (z + 1)) (h / (- z))).
      { replace (1 - (z + 1)) with (- z) by ring. apply is_gamma_pred; [lra|]. replace (- z + 1) with (1 - z) by ring. exact Hh. }
      pose proof (IH (z + 1) (z * g) (h / - z) ltac:(lra) (is_gamma_S _ _ Hg) Hh') as E.
      etransitivity; [|exact E]. replace (PI * (z + 1)) with (PI * z + PI) by ring. rewrite neg_sin. field. lra. }
  intros Hg Hh.
  assert (NI : forall k : Z, z <> IZR k).
  { intros k ->. destruct (Z_le_gt_dec k 0) as [L|G].
    - destruct Hg as [N _]. apply (N (Z.to_nat (- k))). rewrite INR_IZR_INZ, Z2Nat.id by lia. rewrite <- plus_IZR. f_equal. lia.
    - destruct Hh as [N _]. apply (N (Z.to_nat (k - 1))). rewrite INR_IZR_INZ, Z2Nat.id by lia. rewrite minus_IZR. lra. }
  destruct (Rlt_dec z 1) as [L1|G1].
  - (* z < 1: shift up *)
    set (k := (up z - 1)%Z). destruct (archimed z) as [U1 U2]. 
    assert (K1 : IZR (up z) - 1 <> z) by (intros E; apply (NI k); unfold k; rewrite minus_IZR; lra).
    assert (UZ : (up z <= 1)%Z). { apply Z.lt_succ_r. apply lt_IZR. change (Z.succ 1) with 2%Z. lra. }
    assert (UB : (up z - 1 <= 0)%Z) by lia.
    apply (Neg (Z.to_nat (- (up z - 1))) z g h); try assumption. rewrite INR_IZR_INZ, Z2Nat.id by lia. rewrite opp_IZR, minus_IZR. lra.
  - (* z > 1: use the formula at 1 - z *)
    set (w := 1 - z). destruct (archimed w) as [U1 U2].
    assert (K1 : IZR (up w) - 1 <> w). { intros E. apply (NI (1 - (up w - 1))%Z). rewrite !minus_IZR. unfold w in *. lra. }
    assert (UZ : (up w <= 1)%Z). { apply Z.lt_succ_r. apply lt_IZR. change (Z.succ 1) with 2%Z. unfold w in *. lra. }
    pose proof (Neg (Z.to_nat (- (up w - 1))) w h g) as E.
    assert (Q : h * g * sin (PI * w) = PI).
    { apply E; [rewrite INR_IZR_INZ, Z2Nat.id by lia; rewrite opp_IZR, minus_IZR; lra|exact Hh|]. replace (1 - w) with z by (unfold w; ring). exact Hg. }
    etransitivity; [|exact Q]. unfold w. replace (PI * (1 - z)) with (PI - PI * z) by ring. rewrite sin_PI_x. ring.
Qed.

(** ** The crate's gamma function on its whole domain *)
Theorem sgamma_accuracy z g : is_gamma z g -> exists v, sgamma z = Ret v /\ Rabs (v - g) <= 5 / 1000000000000 * Rabs g.
Proof.
  intros Hg. destruct (Rle_dec (1 / 2) z) as [L|L].
  - exists (lanczos z). split; [now apply sgamma_ge|]. apply is_gamma_euler in Hg; [|lra]. pose proof (euler_gamma_pos _ _ Hg) as P.
    pose proof (lanczos_accuracy z g L Hg). rewrite (Rabs_pos_eq g) by lra. lra.
  - assert (Nz : z <> 0). { intros ->. destruct Hg as [N _]. apply (N O). change (INR 0) with 0. ring. }
    exists (PI / (sin (PI * z) * lanczos (1 - z))). split; [apply sgamma_lt; lra|].
    destruct (gamma_exists (1 - z) ltac:(lra)) as [h Hh]. pose proof (euler_gamma_pos _ _ Hh) as Ph.
    pose proof (lanczos_accuracy (1 - z) h ltac:(lra) Hh) as A. pose proof (lanczos_pos (1 - z) ltac:(lra)) as PL.
    pose proof (is_gamma_reflection z g h Hg (euler_is_gamma (1 - z) h ltac:(lra) Hh)) as RF. pose proof PI_RGT_0 as PP.
    assert (Sn : sin (PI * z) <> 0). { intros E. rewrite E, Rmult_0_r in RF. lra. }
    assert (E : PI / (sin (PI * z) * lanczos (1 - z)) - g = g * ((h - lanczos (1 - z)) / lanczos (1 - z))).
    { transitivity (g * h * sin (PI * z) / (sin (PI * z) * lanczos (1 - z)) - g); [now rewrite RF|]. field. split; lra. }
    rewrite E, Rabs_mult. rewrite (Rmult_comm (5 / 1000000000000)). apply Rmult_le_compat_l; [apply Rabs_pos|].
    unfold Rdiv at 1. rewrite Rabs_mult, (Rabs_pos_eq (/ _)) by (left; now apply Rinv_0_lt_compat).
    rewrite Rabs_minus_sym. apply Rmult_le_reg_r with (lanczos (1 - z)); [assumption|]. rewrite Rmult_assoc, Rinv_l, Rmult_1_r by lra.
    apply Rabs_le_between in A. apply Rabs_le. lra.
Qed.
Lemma dk_sum_ext (d d' : Z -> R) l : forall i s, (forall i, d i = d' i) -> dk_sum d i l s = dk_sum d' i l s.
Proof. induction l as [|c l IH]; intros i s H; cbn [dk_sum]; [reflexivity|]. rewrite H. now apply IH. Qed.
Theorem sln_gamma_accuracy_pos x g : 0 < x -> euler_gamma x g -> Rabs (sln_gamma x - ln g) <= 4 / 100000000000000000.
Proof.
  intros Hx Hg. destruct (Rle_dec (1 / 2) x) as [L|L]; [now apply sln_gamma_accuracy|].
  destruct (gamma_exists (1 - x) ltac:(lra)) as [h Hh]. pose proof (sln_gamma_accuracy (1 - x) h ltac:(lra) Hh) as A.
  pose proof (euler_gamma_pos _ _ Hg) as Pg. pose proof (euler_gamma_pos _ _ Hh) as Ph. pose proof PI_RGT_0 as PP.
  pose proof (gamma_reflection x g h ltac:(lra) Hg Hh) as RF. pose proof (sin_PI_pos x ltac:(lra)) as Sp.
  assert (LR : ln g + ln h + ln (sin (PI * x)) = ln PI).
  { transitivity (ln (g * h * sin (PI * x))); [|now rewrite RF]. rewrite (ln_mult (g * h)) by (try assumption; now apply Rmult_lt_0_compat). now rewrite ln_mult. }
  assert (E : sln_gamma x = ln PI - ln (sin (PI * x)) - sln_gamma (1 - x)).
  { rewrite (sln_gamma_F (1 - x)) by lra. rewrite <- (sln_gamma_F (1 - x)) by lra. unfold sln_gamma. rb. rewrite !lit_half'. rops. repeat rcase; try lra.
    assert (Q : dk_sum (fun i => IZR i - x) 1 gamma_dk gamma_dk0 = dk_sum (fun i => 1 - x + IZR i - 1) 1 gamma_dk gamma_dk0).
    { apply dk_sum_ext. intros i. ring. }
    rewrite Q. replace (1 - x - 1 / 2) with (1 / 2 - x) by field. ring. }
  rewrite E. rewrite <- LR. replace (ln g + ln h + ln (sin (PI * x)) - ln (sin (PI * x)) - sln_gamma (1 - x) - ln g) with (- (sln_gamma (1 - x) - ln h)) by ring.
  rewrite Rabs_Ropp. exact A.
Qed.
