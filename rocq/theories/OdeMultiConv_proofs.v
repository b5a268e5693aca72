(** Convergence of the Adams-Bashforth solver. *)
From Coq Require Import Arith Lia List Bool Reals Lra Psatz.
From Coquelicot Require Import Coquelicot.
From Verif Require Import Outcome Scalar RealOps Matrix_model Vector_model Matrix_spec Optim_spec Matrix_proofs Vector_proofs Sums DecompProps_proofs
  Ode_model Ode_spec Ode_proofs OdeOrder_proofs OdeConseq_proofs OdeSolve_proofs OdeMulti_proofs OdeConv_spec OdeConv_proofs OdeGlobal_proofs.
Import ListNotations.
Local Open Scope R_scope.

(** The weights are bounded by 13. *)
Lemma ab_beta_abs j : (1 <= j <= 5)%nat -> sumn j (fun l => Rabs (ab_beta j l)) <= 13.
Proof.
  intros Hj. assert (Hj' : (j = 1 \/ j = 2 \/ j = 3 \/ j = 4 \/ j = 5)%nat) by lia.
  assert (P : forall x, 0 <= x -> Rabs x = x) by (intros; now apply Rabs_pos_eq). assert (N : forall x, x <= 0 -> Rabs x = - x) by (intros; now apply Rabs_left1).
  destruct Hj' as [->|[->|[->|[->| ->]]]]; cbn [sumn nth ab_beta add zero R_ops];
  repeat match goal with |- context [Rabs ?x] => first [rewrite (P x) by lra|rewrite (N x) by lra] end; lra.
Qed.
Lemma ab_sum0 j : (1 <= j <= 5)%nat -> sumn j (ab_beta j) = 1.
Proof.
  intros Hj. pose proof (ab_beta_weights j Hj 0%nat ltac:(lia)) as W. simpl INR in W. rewrite <- (sumR_ext j (fun l => ab_beta j l * (- INR l) ^ 0)).
  - etransitivity; [exact W|]. field.
  - intros l Hl. cbn [pow]. ring.
Qed.
Lemma ab_sum1 j : (2 <= j <= 5)%nat -> sumn j (fun l => ab_beta j l * INR l) = - (1 / 2).
Proof.
  intros Hj. pose proof (ab_beta_weights j ltac:(lia) 1%nat ltac:(lia)) as W.
  assert (E : sumn j (fun l => ab_beta j l * (- INR l) ^ 1) = - sumn j (fun l => ab_beta j l * INR l)).
  { replace (- sumn j (fun l => ab_beta j l * INR l)) with ((-1) * sumn j (fun l => ab_beta j l * INR l)) by ring.
    rewrite <- sumR_mul_l. apply sumR_ext. intros l Hl. cbn [pow]. ring. }
  rewrite E in W. simpl INR in W. lra.
Qed.

(** Local errors.  [g] is the solution and its derivatives, bounded by M on [t0, t1]. *)
Section Local.
Context (g : nat -> R -> R) (t0 t1 M : R) (n : nat) (Hn : (2 <= n)%nat).
Context (HD : forall k t, (k < n)%nat -> t0 <= t <= t1 -> is_derive (g k) t (g (S k) t)).
Context (HM : forall k t, (k <= n)%nat -> t0 <= t <= t1 -> Rabs (g k t) <= M).

Lemma back_1 k t u : (k < n)%nat -> 0 <= u -> t0 <= t - u -> t <= t1 -> Rabs (g k (t - u) - g k t) <= M * u.
Proof.
  intros Hk Hu H0 H1.
  pose proof (taylor_bound 1 (fun r => g (k + r)%nat) (t - u) u M Hu) as T. cbv beta in T.
  unfold tpoly in T. cbn [sumn add zero R_ops fact] in T. replace (t - u + u) with t in T by ring.
  rewrite Nat.add_0_r in T.
  assert (A : Rabs (g k t - (0 + u ^ 0 / INR 1 * g k (t - u))) <= M * u ^ 1).
  { apply T; intros; [replace (k + k0)%nat with k by lia; replace (k + S k0)%nat with (S k) by lia; apply HD; [lia|lra]|apply HM; [lia|lra]]. }
  rewrite Rabs_minus_sym. rewrite pow_1 in A. replace (g k t - g k (t - u)) with (g k t - (0 + u ^ 0 / INR 1 * g k (t - u))); [exact A|].
  cbn [pow INR]. field.
Qed.
Lemma fwd_1 t u : 0 <= u -> t0 <= t -> t + u <= t1 -> Rabs (g 0%nat (t + u) - (g 0%nat t + u * g 1%nat t)) <= M * u ^ 2.
Proof.
  intros Hu H0 H1. pose proof (taylor_bound 2 g t u M Hu) as T. unfold tpoly in T. cbn [sumn add zero R_ops fact] in T.
  replace (g 0%nat t + u * g 1%nat t) with (0 + u ^ 0 / INR 1 * g 0%nat t + u ^ 1 / INR (1 + 0 * 1) * g 1%nat t) by (cbn [Nat.add Nat.mul pow INR]; field).
  apply T; intros; [apply HD; [lia|lra]|apply HM; [lia|lra]].
Qed.
(** Any j values of g' not more than 4 h back, combined with weights of sum one. *)
Lemma ab_crude j t w h : (1 <= j <= 5)%nat -> 0 <= w <= h -> t0 <= t - INR (j - 1) * h -> t + w <= t1 ->
  Rabs (g 0%nat t + w * sumn j (fun l => ab_beta j l * g 1%nat (t - INR l * h)) - g 0%nat (t + w)) <= 53 * M * (w * h).
Proof.
  intros Hj Hw H0 H1.
  assert (HM0 : 0 <= M) by (eapply Rle_trans; [apply Rabs_pos|apply (HM 0%nat t); [lia|]]; pose proof (pos_INR (j - 1)); nra).
  assert (Hl : forall l, (l < j)%nat -> 0 <= INR l * h <= INR (j - 1) * h /\ INR l <= 4).
  { intros l Hl. assert (INR l <= INR (j - 1)) by (apply le_INR; lia). assert (INR l <= INR 4) by (apply le_INR; lia). pose proof (pos_INR l).
    simpl (INR 4) in *. split; [split; [apply Rmult_le_pos; lra|apply Rmult_le_compat_r; lra]|lra]. }
  assert (Ht0 : t0 <= t) by (destruct (Hl 0%nat ltac:(lia)); lra).
  assert (S1 : Rabs (sumn j (fun l => ab_beta j l * (g 1%nat (t - INR l * h) - g 1%nat t))) <= 52 * M * h).
  { apply Rle_trans with (sumn j (fun l => Rabs (ab_beta j l) * (4 * M * h))).
    - apply sumR_abs. intros l Hlj. rewrite Rabs_mult. apply Rmult_le_compat_l; [apply Rabs_pos|]. destruct (Hl l Hlj) as [A B].
      eapply Rle_trans; [apply back_1; [lia|lra|lra|lra]|]. assert (INR l * h <= 4 * h) by (apply Rmult_le_compat_r; lra). nra.
    - rewrite sumR_mul_r. pose proof (ab_beta_abs j Hj). assert (0 <= 4 * M * h) by nra.
      eapply Rle_trans; [apply Rmult_le_compat_r; [lra|exact H]|]. lra. }
  assert (E : sumn j (fun l => ab_beta j l * g 1%nat (t - INR l * h)) = sumn j (fun l => ab_beta j l * (g 1%nat (t - INR l * h) - g 1%nat t)) + g 1%nat t).
  { transitivity (sumn j (fun l => ab_beta j l * (g 1%nat (t - INR l * h) - g 1%nat t)) + sumn j (ab_beta j) * g 1%nat t);
      [rewrite <- sumR_mul_r, <- sumR_add; apply sumR_ext; intros l Hlj; ring|rewrite (ab_sum0 j Hj); ring]. }
  rewrite E. set (S0 := sumn j _) in *. pose proof (fwd_1 t w ltac:(lra) Ht0 H1) as F1.
  replace (g 0%nat t + w * (S0 + g 1%nat t) - g 0%nat (t + w)) with (w * S0 + - (g 0%nat (t + w) - (g 0%nat t + w * g 1%nat t))) by ring.
  eapply Rle_trans; [apply Rabs_triang|]. rewrite Rabs_Ropp, Rabs_mult, (Rabs_pos_eq w) by lra.
  assert (w * Rabs S0 <= w * (52 * M * h)) by (apply Rmult_le_compat_l; lra). assert (M * w ^ 2 <= M * (w * h)) by (apply Rmult_le_compat_l; [lra|nra]). nra.
Qed.
Lemma back_2 t u : (3 <= n)%nat -> 0 <= u -> t0 <= t - u -> t <= t1 -> Rabs (g 1%nat (t - u) - (g 1%nat t - u * g 2%nat t)) <= 2 * M * u ^ 2.
Proof.
  intros Hn3 Hu H0 H1. pose proof (back_1 2 t u ltac:(lia) Hu H0 H1) as B2.
  pose proof (taylor_bound 2 (fun r => g (1 + r)%nat) (t - u) u M Hu) as T. cbv beta in T. unfold tpoly in T. cbn [sumn add zero R_ops fact Nat.add] in T.
  replace (t - u + u) with t in T by ring.
  assert (A : Rabs (g 1%nat t - (0 + u ^ 0 / INR 1 * g 1%nat (t - u) + u ^ 1 / INR (1 + 0 * 1) * g 2%nat (t - u))) <= M * u ^ 2).
  { apply T; intros; [apply HD; [lia|lra]|apply HM; [lia|lra]]. }
  replace (0 + u ^ 0 / INR 1 * g 1%nat (t - u) + u ^ 1 / INR (1 + 0 * 1) * g 2%nat (t - u)) with (g 1%nat (t - u) + u * g 2%nat (t - u)) in A by (cbn [Nat.add Nat.mul pow INR]; field).
  replace (g 1%nat (t - u) - (g 1%nat t - u * g 2%nat t)) with (- (g 1%nat t - (g 1%nat (t - u) + u * g 2%nat (t - u))) + - (u * (g 2%nat (t - u) - g 2%nat t))) by ring.
  eapply Rle_trans; [apply Rabs_triang|]. rewrite !Rabs_Ropp, Rabs_mult, (Rabs_pos_eq u) by lra.
  assert (u * Rabs (g 2%nat (t - u) - g 2%nat t) <= u * (M * u)) by (apply Rmult_le_compat_l; lra). nra.
Qed.
Lemma fwd_2 t u : (3 <= n)%nat -> 0 <= u -> t0 <= t -> t + u <= t1 -> Rabs (g 0%nat (t + u) - (g 0%nat t + u * g 1%nat t + u ^ 2 / 2 * g 2%nat t)) <= M * u ^ 3.
Proof.
  intros Hn3 Hu H0 H1. pose proof (taylor_bound 3 g t u M Hu) as T. unfold tpoly in T. cbn [sumn add zero R_ops] in T.
  replace (g 0%nat t + u * g 1%nat t + u ^ 2 / 2 * g 2%nat t)
    with (0 + u ^ 0 / INR (fact 0) * g 0%nat t + u ^ 1 / INR (fact 1) * g 1%nat t + u ^ 2 / INR (fact 2) * g 2%nat t) by (cbn; field).
  apply T; intros; [apply HD; [lia|lra]|apply HM; [lia|lra]].
Qed.
(** The step of full width with two or more values. *)
Lemma ab_fine j t h : (3 <= n)%nat -> (2 <= j <= 5)%nat -> 0 <= h -> t0 <= t - INR (j - 1) * h -> t + h <= t1 ->
  Rabs (g 0%nat t + h * sumn j (fun l => ab_beta j l * g 1%nat (t - INR l * h)) - g 0%nat (t + h)) <= 417 * M * (h * h ^ 2).
Proof.
  intros Hn3 Hj Hh H0 H1.
  assert (HM0 : 0 <= M) by (eapply Rle_trans; [apply Rabs_pos|apply (HM 0%nat t); [lia|]]; pose proof (pos_INR (j - 1)); nra).
  assert (Hl : forall l, (l < j)%nat -> 0 <= INR l * h <= INR (j - 1) * h /\ 0 <= INR l <= 4).
  { intros l Hl. assert (INR l <= INR (j - 1)) by (apply le_INR; lia). assert (INR l <= INR 4) by (apply le_INR; lia). pose proof (pos_INR l).
    simpl (INR 4) in *. split; [split; [apply Rmult_le_pos; lra|apply Rmult_le_compat_r; lra]|lra]. }
  assert (Ht0 : t0 <= t) by (destruct (Hl 0%nat ltac:(lia)); lra).
  set (r := fun l => g 1%nat (t - INR l * h) - (g 1%nat t - INR l * h * g 2%nat t)).
  assert (S1 : Rabs (sumn j (fun l => ab_beta j l * r l)) <= 416 * M * h ^ 2).
  { apply Rle_trans with (sumn j (fun l => Rabs (ab_beta j l) * (32 * M * h ^ 2))).
    - apply sumR_abs. intros l Hlj. rewrite Rabs_mult. apply Rmult_le_compat_l; [apply Rabs_pos|]. destruct (Hl l Hlj) as [A B].
      unfold r. eapply Rle_trans; [apply back_2; [exact Hn3|lra|lra|lra]|].
      assert ((INR l * h) ^ 2 <= (4 * h) ^ 2) by (apply pow_incr; nra). nra.
    - rewrite sumR_mul_r. pose proof (ab_beta_abs j ltac:(lia)). assert (0 <= h ^ 2) by (apply pow_le; lra). assert (0 <= 32 * M * h ^ 2) by nra.
      eapply Rle_trans; [apply Rmult_le_compat_r; [lra|exact H]|]. lra. }
  assert (E : sumn j (fun l => ab_beta j l * g 1%nat (t - INR l * h)) = sumn j (fun l => ab_beta j l * r l) + (g 1%nat t + h / 2 * g 2%nat t)).
  { transitivity (sumn j (fun l => ab_beta j l * r l) + (sumn j (ab_beta j) * g 1%nat t + sumn j (fun l => ab_beta j l * INR l) * (- h * g 2%nat t)));
      [rewrite <- !sumR_mul_r, <- !sumR_add; apply sumR_ext; intros l Hlj; unfold r; ring|rewrite (ab_sum0 j), (ab_sum1 j) by lia; field]. }
  rewrite E. set (S0 := sumn j _) in *. pose proof (fwd_2 t h Hn3 Hh Ht0 H1) as F1.
  replace (g 0%nat t + h * (S0 + (g 1%nat t + h / 2 * g 2%nat t)) - g 0%nat (t + h))
    with (h * S0 + - (g 0%nat (t + h) - (g 0%nat t + h * g 1%nat t + h ^ 2 / 2 * g 2%nat t))) by field.
  eapply Rle_trans; [apply Rabs_triang|]. rewrite Rabs_Ropp, Rabs_mult, (Rabs_pos_eq h) by lra.
  assert (h * Rabs S0 <= h * (416 * M * h ^ 2)) by (apply Rmult_le_compat_l; lra). nra.
Qed.
End Local.

Section Main.
Context (f : R -> vector R -> outcome (vector R)) (m k p : nat) (F : R -> (nat -> R) -> nat -> R) (t0 t1 : R) (Y : nat -> nat -> R -> R).
Context (rho L M : R).
Context (Hk : (1 <= k <= 5)%nat) (Hp : p = Nat.min k 2).
Context (Hf : forall t, computes (f t) m m (F t)).
Context (HF : forall i t, (i < m)%nat -> t0 <= t <= t1 -> Y 1%nat i t = F t (fun l => Y 0%nat l t) i).
Context (HD : forall r i t, (r < p + 1)%nat -> (i < m)%nat -> t0 <= t <= t1 -> is_derive (Y r i) t (Y (S r) i t)).
Context (HB : forall r i t, (r <= p + 1)%nat -> (i < m)%nat -> t0 <= t <= t1 -> Rabs (Y r i t) <= M).
Context (Hrho : 0 < rho) (HL0 : 0 <= L) (HM0 : 0 <= M).
Context (HL : lipschitz_near m F t0 t1 (Y 0%nat) rho L).
Context (Ht : t0 < t1).

Lemma f_total' : rhs_total f m.
Proof. intros t x g Hx. destruct (Hf t x g Hx) as (y & E & Hy). eauto. Qed.

Definition lam : R := 13 * L.
Definition cl : R := 417 * M.
(** Sum of the local errors up to the i-th time. *)
Definition acc (N : nat) (h t : R) (i : nat) : R :=
  cl * (h ^ p * (t - t0) + (if (i =? 0)%nat then 0 else h ^ 2) + (if (i =? N)%nat then h ^ 2 else 0)).
Definition bnd (N : nat) (h delta t : R) (i : nat) : R := exp (lam * (t - t0)) * (delta + acc N h t i).
Definition kk : R := exp (lam * (t1 - t0)) * (1 + cl * (t1 - t0 + 2)).
Definition hm : R := Rmin (Rmin 1 ((t1 - t0) / 5)) (rho / (2 * kk)).

Lemma lam_pos : 0 <= lam. Proof. unfold lam. lra. Qed.
Lemma cl_pos : 0 <= cl. Proof. unfold cl. lra. Qed.
Lemma kk_pos : 0 < kk.
Proof.
  unfold kk. apply Rmult_lt_0_compat; [apply exp_pos|]. pose proof cl_pos. assert (0 <= cl * (t1 - t0 + 2)) by (apply Rmult_le_pos; lra). lra.
Qed.
Lemma hm_pos : 0 < hm.
Proof. unfold hm. pose proof kk_pos. apply Rmin_glb_lt; [apply Rmin_glb_lt; [lra|apply Rdiv_lt_0_compat; lra]|apply Rdiv_lt_0_compat; lra]. Qed.
Lemma hm_use h : h <= hm -> h <= 1 /\ 5 * h <= t1 - t0 /\ kk * (h + h) <= rho.
Proof.
  intros H. unfold hm in H. pose proof kk_pos. pose proof (Rmin_l (Rmin 1 ((t1 - t0) / 5)) (rho / (2 * kk))). pose proof (Rmin_r (Rmin 1 ((t1 - t0) / 5)) (rho / (2 * kk))).
  pose proof (Rmin_l 1 ((t1 - t0) / 5)). pose proof (Rmin_r 1 ((t1 - t0) / 5)). split; [lra|]. split; [lra|].
  assert (h <= rho / (2 * kk)) by lra. apply (Rmult_le_compat_l (2 * kk)) in H5; [|lra]. replace (2 * kk * (rho / (2 * kk))) with rho in H5 by (field; lra). lra.
Qed.
Lemma exp_mono a b : a <= b -> exp a <= exp b.
Proof. intros [H| ->]; [left; now apply exp_increasing|right; reflexivity]. Qed.
Lemma hp_le h : 0 <= h <= 1 -> 0 <= h ^ p <= h /\ h ^ 2 <= h ^ p.
Proof.
  intros Hh. assert (Hp' : (p = 1 \/ p = 2)%nat) by lia. destruct Hp' as [-> | ->]; cbn [pow]; nra.
Qed.
Lemma acc_pos N h t i : 0 <= h <= 1 -> t0 <= t -> 0 <= acc N h t i.
Proof.
  intros Hh H. unfold acc. pose proof cl_pos. destruct (hp_le h Hh) as [A B]. assert (0 <= h ^ 2) by (apply pow_le; lra).
  apply Rmult_le_pos; [exact H0|]. assert (0 <= h ^ p * (t - t0)) by (apply Rmult_le_pos; lra). destruct (i =? 0)%nat, (i =? N)%nat; lra.
Qed.
Lemma acc_mono N h s t i : 0 <= h <= 1 -> t0 <= s <= t -> (i < N)%nat ->
  acc N h s i + cl * (h ^ p * (t - s) + (if (i =? 0)%nat then h ^ 2 else 0) + (if (S i =? N)%nat then h ^ 2 else 0)) = acc N h t (S i).
Proof.
  intros Hh H Hi. unfold acc. destruct (Nat.eqb_spec i N); [lia|]. destruct (Nat.eqb_spec (S i) 0); [lia|]. destruct (i =? 0)%nat; ring.
Qed.
Lemma bnd_mono N h delta s t i : 0 <= h <= 1 -> 0 <= delta -> t0 <= s <= t -> (i < N)%nat -> 0 <= bnd N h delta s i <= bnd N h delta t (S i).
Proof.
  intros Hh Hd H Hi. unfold bnd. pose proof (acc_pos N h s i Hh ltac:(lra)). pose proof (exp_pos (lam * (s - t0))). pose proof lam_pos. split; [nra|].
  apply Rmult_le_compat; [lra|lra|apply exp_mono, Rmult_le_compat_l; lra|]. rewrite <- (acc_mono N h s t i Hh H Hi).
  pose proof cl_pos. destruct (hp_le h Hh) as [A B]. assert (0 <= h ^ 2) by (apply pow_le; lra). assert (0 <= h ^ p * (t - s)) by (apply Rmult_le_pos; lra).
  assert (0 <= cl * (h ^ p * (t - s) + (if (i =? 0)%nat then h ^ 2 else 0) + (if (S i =? N)%nat then h ^ 2 else 0))) by (apply Rmult_le_pos; [lra|]; destruct (i =? 0)%nat, (S i =? N)%nat; lra).
  lra.
Qed.
Lemma bnd_total N h delta t i : 0 <= h <= 1 -> 0 <= delta -> t0 <= t <= t1 -> bnd N h delta t i <= kk * (delta + h ^ p).
Proof.
  intros Hh Hd H. unfold bnd, kk. pose proof (acc_pos N h t i Hh ltac:(lra)). pose proof lam_pos. pose proof cl_pos. destruct (hp_le h Hh) as [A B]. assert (0 <= h ^ 2) by (apply pow_le; lra).
  rewrite Rmult_assoc. apply Rmult_le_compat; [left; apply exp_pos|lra|apply exp_mono, Rmult_le_compat_l; lra|].
  assert (acc N h t i <= cl * (t1 - t0 + 2) * h ^ p).
  { unfold acc. rewrite Rmult_assoc. apply Rmult_le_compat_l; [lra|]. assert (h ^ p * (t - t0) <= h ^ p * (t1 - t0)) by (apply Rmult_le_compat_l; lra).
    destruct (i =? 0)%nat, (i =? N)%nat; lra. }
  assert (0 <= cl * (t1 - t0 + 2) * delta) by (repeat apply Rmult_le_pos; lra). lra.
Qed.
Lemma exp_step u w : 0 <= w -> (1 + lam * w) * exp (lam * u) <= exp (lam * (u + w)).
Proof.
  intros Hw. rewrite Rmult_plus_distr_l, exp_plus, Rmult_comm. apply Rmult_le_compat_l; [left; apply exp_pos|].
  pose proof (exp_ineq1_le (lam * w)). lra.
Qed.

Lemma ab_converges : multistep_converges p ab_solve k f m t0 t1 (Y 0%nat).
Proof.
  exists kk, hm. split; [exact hm_pos|]. intros h delta init g0 Hh Hd Hi Hg0.
  destruct (hm_use h ltac:(lra)) as (Hh1 & Hh5 & Hhr). destruct (hm_use delta ltac:(lra)) as (_ & _ & Hdr).
  assert (Hy : 0 <= (t1 - t0) / h) by (apply Rmult_le_pos; [lra|left; apply Rinv_0_lt_compat; lra]).
  destruct (steps_spec ((t1 - t0) / h) Hy) as (N0 & _ & HN).
  destruct (ms_solve_spec f m f_total' ab_step 5 ab_beta (fun j => j) (ab_step_spec f m) t0 t1 h ltac:(lra) ltac:(lra) k Hk init g0 N0 HN Hi)
    as (N & tv & xv & HM & Hs & L1 & L2 & Hg & Hend & Hbefore & H0 & X & Fv & (_ & Hh') & Hrec).
  exists (Nat.max N0 (k - 1)), N, tv, xv. split; [exact Hs|]. split; [exact L1|]. split; [exact L2|]. split; [exact Hg|].
  split; [rewrite Hg by lia; pose proof (grid_in t0 t1 h ltac:(lra) ltac:(lra) N); lra|].
  set (t := grid t0 t1 h) in *.
  assert (Hk4 : INR (k - 1) <= 4) by (assert (INR (k - 1) <= INR 4) by (apply le_INR; lia); simpl (INR 4) in *; lra).
  assert (Hun : forall i, (i < N)%nat -> t i = t0 + INR i * h /\ t i <= t1).
  { intros i HiN. assert (Hti : t i < t1).
    { destruct (Nat.lt_ge_cases i (k - 1)) as [Hlt|Hge].
      - unfold t, grid. assert (INR i <= INR (k - 1)) by (apply le_INR; lia). assert (INR i * h <= 4 * h) by (apply Rmult_le_compat_r; lra). rewrite Rmin_left; lra.
      - specialize (Hbefore i ltac:(lia)). fold t in Hbefore. lra. }
    split; [|lra]. unfold t, grid in *. destruct (Rle_dec (t0 + INR i * h) t1); [now rewrite Rmin_left|]. rewrite Rmin_right in Hti; lra. }
  assert (Hin : forall i, t0 <= t i <= t1) by (intros i; apply (grid_in t0 t1 h); lra).
  assert (Hst : forall i, (i < N)%nat -> 0 <= t (S i) - t i <= h /\ ((S i < N)%nat -> t (S i) - t i = h)).
  { intros i HiN. destruct (Hun i HiN) as [E E']. split.
    - unfold t at 1 3, grid. rewrite E, S_INR. split; [apply Rle_minus_r; rewrite Rplus_0_l; apply Rmin_glb; lra|]. apply Rle_trans with (t0 + (INR i + 1) * h - (t0 + INR i * h)); [|lra]. apply Rplus_le_compat_r, Rmin_l.
    - intros HS. destruct (Hun (S i) HS) as [E2 _]. rewrite E2, E, S_INR. ring. }
  assert (HFv : forall i c, (i <= N)%nat -> (c < m)%nat -> Fv i c = F (t i) (X i) c).
  { intros i c HiN Hc. destruct (Hh' i ltac:(lia)) as (Hxi & y & Ey & Hyc). destruct (Hf (nth i tv 0) _ _ Hxi) as (y' & Ey' & Hyc').
    rewrite Ey in Ey'. injection Ey' as <-. rewrite (col_unique _ _ _ _ c Hyc Hyc' Hc), Hg by lia. reflexivity. }
  assert (HX0 : forall c, (c < m)%nat -> X 0%nat c = g0 c).
  { intros c Hc. destruct (Hh' 0%nat ltac:(lia)) as (Hx0 & _). rewrite H0 in Hx0. now apply (col_unique _ _ _ _ c Hx0 Hi). }
  assert (Hsmall : forall i, bnd N h delta (t i) i <= rho).
  { intros i. eapply Rle_trans; [apply bnd_total; [lra|lra|apply Hin]|]. destruct (hp_le h ltac:(lra)). pose proof kk_pos. assert (kk * (delta + h ^ p) <= kk * (delta + h)) by (apply Rmult_le_compat_l; lra). lra. }
  assert (Hmono : forall i j, (i <= j <= N)%nat -> 0 <= bnd N h delta (t i) i <= bnd N h delta (t j) j).
  { intros i j [Hij HjN]. induction Hij as [|j Hij IH].
    - split; [|lra]. unfold bnd. pose proof (acc_pos N h (t i) i ltac:(lra) (proj1 (Hin i))). pose proof (exp_pos (lam * (t i - t0))). nra.
    - destruct IH as [A B]; [lia|]. destruct (Hst j ltac:(lia)) as [Hw _]. pose proof (bnd_mono N h delta (t j) (t (S j)) j ltac:(lra) ltac:(lra) ltac:(pose proof (Hin j); lra) ltac:(lia)). lra. }
  assert (Main : forall n, (n <= N)%nat -> forall i, (i <= n)%nat -> within m (fun l => X i l - Y 0%nat l (t i)) (bnd N h delta (t i) i)).
  { induction n as [|n IH]; intros HnN i Hin'.
    - assert (i = 0%nat) by lia. subst i. intros l Hl. cbv beta. rewrite HX0 by exact Hl.
      assert (Et : t 0%nat = t0) by (unfold t; apply grid_0; lra). rewrite Et. eapply Rle_trans; [exact (Hg0 l Hl)|]. unfold bnd.
      replace (lam * (t0 - t0)) with 0 by ring. rewrite exp_0. pose proof (acc_pos N h t0 0 ltac:(lra) ltac:(lra)). lra.
    - destruct (Nat.eq_dec i (S n)) as [->|Hne]; [|apply IH; lia]. specialize (IH ltac:(lia)).
      intros c Hc. cbv beta. pose proof (Hrec (S n) ltac:(lia) c Hc) as R1. cbv beta zeta in R1. replace (S n - 1)%nat with n in R1 by lia.
      fold t in R1. destruct (Hst n ltac:(lia)) as [Hw Hwf]. set (w := t (S n) - t n) in *.
      set (j := Nat.min (S n) k) in *. assert (Hj : (1 <= j <= 5)%nat) by (unfold j; lia). assert (Hjn : (j <= S n)%nat) by (unfold j; lia).
      destruct (Hun n ltac:(lia)) as [En _].
      assert (Enode : forall l, (l < j)%nat -> t (n - l)%nat = t n - INR l * h).
      { intros l Hl. destruct (Hun (n - l)%nat ltac:(lia)) as [El _]. rewrite El, En, minus_INR by lia. ring. }
      set (E := bnd N h delta (t n) n).
      set (D := sumn j (fun l => ab_beta j l * (F (t (n - l)%nat) (X (n - l)%nat) c - Y 1%nat c (t n - INR l * h)))).
      set (S1 := sumn j (fun l => ab_beta j l * Y 1%nat c (t n - INR l * h))).
      assert (ES : sumn j (fun l => ab_beta j l * Fv (n - l)%nat c) = D + S1).
      { unfold D, S1. rewrite <- sumR_add. apply sumR_ext. intros l Hl. rewrite HFv by lia. ring. }
      assert (HDb : Rabs D <= lam * E).
      { apply Rle_trans with (sumn j (fun l => Rabs (ab_beta j l) * (L * E))).
        - apply sumR_abs. intros l Hl. rewrite Rabs_mult. apply Rmult_le_compat_l; [apply Rabs_pos|].
          rewrite <- (Enode l Hl), HF by (exact Hc || apply Hin).
          apply (HL (t (n - l)%nat) (X (n - l)%nat) (fun q => Y 0%nat q (t (n - l)%nat)) E); [apply Hin| | | |exact Hc].
          + intros q Hq. eapply Rle_trans; [apply (IH (n - l)%nat); [lia|exact Hq]|apply Hsmall].
          + intros q Hq. cbv beta. rewrite Rminus_diag_eq, Rabs_R0 by reflexivity. lra.
          + intros q Hq. eapply Rle_trans; [apply (IH (n - l)%nat); [lia|exact Hq]|]. apply Hmono. lia.
        - rewrite sumR_mul_r. unfold lam. rewrite Rmult_assoc. apply Rmult_le_compat_r; [|apply ab_beta_abs; exact Hj].
          apply Rmult_le_pos; [lra|]. apply (Hmono n n). lia. }
      (* the local error *)
      set (tau := cl * (h ^ p * w + (if (n =? 0)%nat then h ^ 2 else 0) + (if (S n =? N)%nat then h ^ 2 else 0))).
      assert (Hloc : Rabs (Y 0%nat c (t n) + w * S1 - Y 0%nat c (t (S n))) <= tau).
      { replace (t (S n)) with (t n + w) by (unfold w; ring).
        assert (Hback : t0 <= t n - INR (j - 1) * h).
        { rewrite En. assert (INR (j - 1) <= INR n) by (apply le_INR; lia). assert (INR (j - 1) * h <= INR n * h) by (apply Rmult_le_compat_r; lra). lra. }
        assert (Hfw : t n + w <= t1) by (unfold w; pose proof (Hin (S n)); lra).
        assert (Cr : Rabs (Y 0%nat c (t n) + w * S1 - Y 0%nat c (t n + w)) <= 53 * M * (w * h)).
        { apply (ab_crude (fun r => Y r c) t0 t1 M (p + 1)); auto; try lia. }
        destruct (hp_le h ltac:(lra)) as [A B]. assert (0 <= h ^ 2) by (apply pow_le; lra). assert (0 <= h ^ p * w) by (apply Rmult_le_pos; lra).
        assert (Hc1 : (p = 1 \/ n = 0 \/ S n = N \/ (p = 2 /\ 2 <= j /\ S n < N))%nat) by (unfold j; lia).
        assert (Big : w * h <= h ^ p * w + (if (n =? 0)%nat then h ^ 2 else 0) + (if (S n =? N)%nat then h ^ 2 else 0) ->
                      53 * M * (w * h) <= tau).
        { intros Q. unfold tau, cl. apply Rle_trans with (417 * M * (w * h)); [assert (0 <= M * (w * h)) by (repeat apply Rmult_le_pos; lra); lra|]. apply Rmult_le_compat_l; lra. }
        destruct Hc1 as [P1|[N1|[N2|(P2 & J2 & N3)]]].
        - eapply Rle_trans; [exact Cr|apply Big]. rewrite P1, pow_1. destruct (n =? 0)%nat, (S n =? N)%nat; lra.
        - eapply Rle_trans; [exact Cr|apply Big]. replace (n =? 0)%nat with true by (symmetry; apply Nat.eqb_eq; exact N1). assert (w * h <= h ^ 2) by (cbn [pow]; nra). destruct (S n =? N)%nat; lra.
        - eapply Rle_trans; [exact Cr|apply Big]. replace (S n =? N)%nat with true by (symmetry; apply Nat.eqb_eq; exact N2). assert (w * h <= h ^ 2) by (cbn [pow]; nra). destruct (n =? 0)%nat; lra.
        - specialize (Hwf N3). unfold S1. rewrite Hwf.
          eapply Rle_trans; [apply (ab_fine (fun r => Y r c) t0 t1 M (p + 1)); auto; try lia; try lra|].
          unfold tau, cl. rewrite P2, Hwf. assert (0 <= 417 * M) by lra. apply Rmult_le_compat_l; [lra|]. destruct (n =? 0)%nat, (S n =? N)%nat; lra. }
      rewrite R1, ES.
      replace (X n c + w * (D + S1) - Y 0%nat c (t (S n))) with ((X n c - Y 0%nat c (t n)) + w * D + (Y 0%nat c (t n) + w * S1 - Y 0%nat c (t (S n)))) by ring.
      eapply Rle_trans; [apply Rabs_triang|]. eapply Rle_trans; [apply Rplus_le_compat; [apply Rabs_triang|exact Hloc]|].
      rewrite Rabs_mult, (Rabs_pos_eq w) by lra. pose proof (IH n ltac:(lia) c Hc) as IHn. cbv beta in IHn. fold E in IHn.
      assert (w * Rabs D <= w * (lam * E)) by (apply Rmult_le_compat_l; lra).
      apply Rle_trans with ((1 + lam * w) * E + tau); [lra|].
      unfold bnd. rewrite <- (acc_mono N h (t n) (t (S n)) n) by (try lia; try lra; unfold w in Hw; pose proof (Hin n); lra).
      fold w. fold tau. replace (t (S n) - t0) with ((t n - t0) + w) by (unfold w; ring).
      assert (Htau : 0 <= tau) by (eapply Rle_trans; [apply Rabs_pos|exact Hloc]).
      pose proof (exp_step (t n - t0) w ltac:(lra)) as ES2. pose proof (acc_pos N h (t n) n ltac:(lra) (proj1 (Hin n))) as AP.
      unfold E, bnd. rewrite <- Rmult_assoc. apply Rle_trans with (exp (lam * (t n - t0 + w)) * (delta + acc N h (t n) n) + tau).
      + apply Rplus_le_compat_r, Rmult_le_compat_r; lra.
      + assert (1 <= exp (lam * (t n - t0 + w))).
        { rewrite <- exp_0. apply exp_mono. apply Rmult_le_pos; [exact lam_pos|]. pose proof (Hin n). lra. }
        nra. }
  intros i HiN. exists (X i). split; [apply Hh'; lia|]. rewrite Hg by exact HiN. fold t. intros l Hl.
  eapply Rle_trans; [apply (Main N (le_n N) i HiN l Hl)|]. apply bnd_total; [lra|lra|apply Hin].
Qed.
End Main.

(** x' = 2 t, x(0) = 0: the first step leaves the state at 0, all later ones are exact. *)
Definition ramp_rhs (t : R) (_ : vector R) : outcome (vector R) := Ret (mkMatrix 1 1 [2 * t]).
Lemma ramp_computes t : computes (ramp_rhs t) 1 1 (fun _ _ => 2 * t).
Proof.
  intros x g Hx. eexists. split; [reflexivity|]. eapply is_mat_ext; [|exact (is_col_list 0 1 [2 * t] eq_refl)].
  intros i j Hi Hj. replace i with 0%nat by lia. reflexivity.
Qed.
Lemma ramp_smooth n : smooth_solution 1 (fun t _ _ => 2 * t) 0 1 n (fun r _ t => match r with 0%nat => t ^ 2 | 1%nat => 2 * t | 2%nat => 2 | _ => 0 end).
Proof.
  split; [|split].
  - reflexivity.
  - intros k i t _ _ _. destruct k as [|[|[|k]]]; (auto_derive; [exact I|ring]).
  - exists 2. intros k i t _ _ Ht. destruct k as [|[|[|k]]]; rewrite Rabs_pos_eq; nra.
Qed.
Lemma ramp_run k h init : (2 <= k <= 5)%nat -> 0 < h -> 5 * h <= 1 -> is_col init 1 (fun _ => 0) ->
  exists fuel0 M tv xv, (forall fuel, (fuel0 <= fuel)%nat -> ab_solve ramp_rhs h 1 fuel k 0 init = Ret (Some (tv, xv))) /\
    (2 <= M)%nat /\ length tv = S M /\ length xv = S M /\ 1 - 1 / 10000000000 <= nth M tv 0 <= 1 /\
    (forall i, (i < M)%nat -> nth i tv 0 = INR i * h) /\
    forall i, (1 <= i < M)%nat -> is_col (nth i xv (vzero 0)) 1 (fun _ => (nth i tv 0) ^ 2 - h ^ 2).
Proof.
  intros Hk Hh Hh5 Hi.
  assert (Tot : rhs_total ramp_rhs 1) by (intros t x g Hx; destruct (ramp_computes t x g Hx) as (y & E & Hy); eauto).
  assert (Hy : 0 <= (1 - 0) / h) by (apply Rmult_le_pos; [lra|left; apply Rinv_0_lt_compat; lra]).
  destruct (steps_spec ((1 - 0) / h) Hy) as (N0 & _ & HN).
  destruct (ms_solve_spec ramp_rhs 1 Tot ab_step 5 ab_beta (fun j => j) (ab_step_spec ramp_rhs 1) 0 1 h ltac:(lra) ltac:(lra) k ltac:(lia) init _ N0 HN Hi)
    as (N & tv & xv & HM & Hs & L1 & L2 & Hg & Hend & Hbefore & H0 & X & Fv & (_ & Hh') & Hrec).
  exists (Nat.max N0 (k - 1)), N, tv, xv. split; [exact Hs|].
  assert (HN2 : (2 <= N)%nat).
  { destruct (Nat.le_gt_cases 2 N); [assumption|]. assert (N = 1%nat) by lia. subst N. unfold grid in Hend. simpl in Hend. rewrite Rmin_left in Hend by lra. lra. }
  split; [exact HN2|]. split; [exact L1|]. split; [exact L2|].
  split; [rewrite Hg by lia; pose proof (grid_in 0 1 h ltac:(lra) ltac:(lra) N); lra|].
  assert (Hun : forall i, (i < N)%nat -> nth i tv 0 = INR i * h).
  { intros i HiN. rewrite Hg by lia. unfold grid. rewrite Rmin_left; [ring|].
    destruct (Nat.lt_ge_cases i (k - 1)) as [Hlt|Hge].
    - assert (INR i <= INR 4) by (apply le_INR; lia). simpl (INR 4) in *. assert (INR i * h <= 4 * h) by (apply Rmult_le_compat_r; lra). lra.
    - specialize (Hbefore i ltac:(lia)). unfold grid in Hbefore. destruct (Rle_dec (0 + INR i * h) 1); [lra|]. rewrite Rmin_right in Hbefore; lra. }
  split; [exact Hun|].
  assert (HFv : forall i, (i <= N)%nat -> Fv i 0%nat = 2 * nth i tv 0).
  { intros i HiN. destruct (Hh' i ltac:(lia)) as (Hxi & y & Ey & Hyc). destruct (ramp_computes (nth i tv 0) _ _ Hxi) as (y' & Ey' & Hyc').
    rewrite Ey in Ey'. injection Ey' as <-. exact (col_unique _ _ _ _ 0 Hyc Hyc' ltac:(lia)). }
  assert (Main : forall i, (i < N)%nat -> (1 <= i)%nat -> X i 0%nat = (INR i * h) ^ 2 - h ^ 2).
  { induction i as [|i IH]; intros HiN H1; [lia|]. pose proof (Hrec (S i) ltac:(lia) 0%nat ltac:(lia)) as R1. cbv beta zeta in R1. replace (S i - 1)%nat with i in R1 by lia.
    rewrite <- !Hg in R1 by lia. rewrite !Hun in R1 by lia. replace (INR (S i) * h - INR i * h) with h in R1 by (rewrite S_INR; ring).
    destruct (Nat.eq_dec i 0) as [->|Hi0].
    - assert (X0 : X 0%nat 0%nat = 0). { destruct (Hh' 0%nat ltac:(lia)) as (Hx0 & _). rewrite H0 in Hx0. exact (col_unique _ _ _ _ 0 Hx0 Hi ltac:(lia)). }
      rewrite R1, X0. replace (Nat.min 1 k) with 1%nat by lia. cbn [sumn ab_beta nth add zero R_ops Nat.sub]. rewrite HFv, Hun by lia. simpl. ring.
    - rewrite R1, IH by lia. set (j := Nat.min (S i) k) in *. assert (Hj : (2 <= j <= 5)%nat) by (unfold j; lia).
      assert (ES : sumn j (fun l => ab_beta j l * Fv (i - l)%nat 0%nat) = 2 * INR i * h + h).
      { transitivity (sumn j (ab_beta j) * (2 * INR i * h) + sumn j (fun l => ab_beta j l * INR l) * (- 2 * h)).
        - rewrite <- !sumR_mul_r, <- sumR_add. apply sumR_ext. intros l Hl. rewrite HFv, Hun, minus_INR by (unfold j in Hl; lia). ring.
        - rewrite (ab_sum0 j), (ab_sum1 j) by lia. field. }
      rewrite ES, S_INR. ring. }
  intros i [H1 HiN]. destruct (Hh' i ltac:(lia)) as (Hxi & _). eapply is_mat_ext; [|exact Hxi].
  intros r c Hr Hc. replace r with 0%nat by lia. cbv beta. rewrite Main, Hun by lia. reflexivity.
Qed.
