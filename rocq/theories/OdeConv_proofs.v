(** Convergence of explicit Runge-Kutta methods: Taylor expansions of the stages, stability, and the
    accumulation of the local errors. *)
From Coq Require Import Arith Lia List Bool Reals Lra Psatz.
From Coquelicot Require Import Coquelicot.
From Verif Require Import Outcome Scalar RealOps Matrix_model Matrix_spec Sums OdeConseq_proofs BigO_proofs OdeConv_spec.
Import ListNotations.
Local Open Scope R_scope.

Lemma sumR_abs n (f : nat -> R) B : (forall l, (l < n)%nat -> Rabs (f l) <= B l) -> Rabs (sumn n f) <= sumn n B.
Proof.
  induction n as [|n IH]; intros H; [cbn; rewrite Rabs_R0; lra|]. rewrite !sumR_S. eapply Rle_trans; [apply Rabs_triang|].
  apply Rplus_le_compat; [apply IH; intros; apply H; lia|apply H; lia].
Qed.
Lemma sumR_nonneg n (f : nat -> R) : (forall l, (l < n)%nat -> 0 <= f l) -> 0 <= sumn n f.
Proof. induction n as [|n IH]; intros H; [cbn; lra|]. rewrite sumR_S. apply Rplus_le_le_0_compat; [apply IH; intros; apply H; lia|apply H; lia]. Qed.
Lemma sumR_le_term n (f : nat -> R) k : (forall l, (l < n)%nat -> 0 <= f l) -> (k < n)%nat -> f k <= sumn n f.
Proof.
  induction n as [|n IH]; intros H Hk; [lia|]. rewrite sumR_S. destruct (Nat.eq_dec k n) as [->|Ne].
  - pose proof (sumR_nonneg n f ltac:(intros; apply H; lia)). lra.
  - specialize (IH ltac:(intros; apply H; lia) ltac:(lia)). pose proof (H n ltac:(lia)). lra.
Qed.

(** ** Taylor's formula for a tower of derivatives *)
Definition tpoly (g : nat -> R) (n : nat) (u : R) : R := sumn n (fun r => u ^ r / INR (fact r) * g r).
Lemma tpoly_deriv (g : nat -> R) n u : is_derive (tpoly g (S n)) u (tpoly (fun r => g (S r)) n u).
Proof.
  unfold tpoly. induction n as [|n IH].
  - apply (is_derive_ext (fun _ => g 0%nat)); [intros t; cbn; field|]. cbn. auto_derive; [exact I|reflexivity].
  - apply (is_derive_ext (fun u => plus (sumn (S n) (fun r => u ^ r / INR (fact r) * g r)) (u ^ S n / INR (fact (S n)) * g (S n)))); [reflexivity|].
    rewrite sumR_S. apply (is_derive_plus (V := R_NormedModule)); [exact IH|].
    assert (DD : forall C, is_derive (fun u => u ^ S n * C) u (INR (S n) * u ^ n * C)).
    { intros C. auto_derive; [exact I|]. change (match n with 0%nat => 1 | S _ => INR n + 1 end) with (INR (S n)). ring. }
    apply (is_derive_ext (fun u => u ^ S n * (g (S n) / INR (fact (S n))))); [intros v; match goal with |- @eq _ ?x ?z => change (@eq R x z) end; unfold Rdiv; ring|].
    replace (u ^ n / INR (fact n) * g (S n)) with (INR (S n) * u ^ n * (g (S n) / INR (fact (S n)))); [apply DD|].
    rewrite fact_simpl, mult_INR. field. split; [apply INR_fact_neq_0|apply not_0_INR; lia].
Qed.
Lemma tpoly_0 (g : nat -> R) n : tpoly g (S n) 0 = g 0%nat.
Proof. unfold tpoly. rewrite sumR_first. rewrite (sumR_ext _ _ (fun _ => 0)); [rewrite sumR_zero; cbn; field|]. intros i _. cbn [pow]. unfold Rdiv. ring. Qed.

Lemma mean_bound (f df : R -> R) u B : 0 <= u -> (forall s, 0 <= s <= u -> is_derive f s (df s)) ->
  (forall s, 0 <= s <= u -> Rabs (df s) <= B) -> Rabs (f u - f 0) <= B * u.
Proof.
  intros Hu Hd HB. destruct (MVT_gen f 0 u df) as (z & Hz & E).
  - intros x Hx. rewrite Rmin_left, Rmax_right in Hx by lra. apply Hd; lra.
  - intros x Hx. rewrite Rmin_left, Rmax_right in Hx by lra. apply continuity_pt_filterlim.
    apply (ex_derive_continuous (V := R_NormedModule) f x). exists (df x). apply Hd; lra.
  - rewrite Rmin_left, Rmax_right in Hz by lra. rewrite E, Rminus_0_r, Rabs_mult, (Rabs_pos_eq u Hu).
    apply Rmult_le_compat_r; [exact Hu|]. apply HB; lra.
Qed.

Lemma taylor_bound : forall n (g : nat -> R -> R) t u M, 0 <= u ->
  (forall k s, (k < n)%nat -> t <= s <= t + u -> is_derive (g k) s (g (S k) s)) ->
  (forall s, t <= s <= t + u -> Rabs (g n s) <= M) ->
  Rabs (g 0%nat (t + u) - tpoly (fun r => g r t) n u) <= M * u ^ n.
Proof.
  induction n as [|n IH]; intros g t u M Hu Hd HM.
  - unfold tpoly. cbn. rewrite Rminus_0_r, Rmult_1_r. apply HM. lra.
  - assert (K := mean_bound (fun u => g 0%nat (t + u) - tpoly (fun r => g r t) (S n) u)
      (fun u => g 1%nat (t + u) - tpoly (fun r => g (S r) t) n u) u (M * u ^ n) Hu).
    cbv beta in K. rewrite Rplus_0_r, tpoly_0 in K.
    replace (g 0%nat t - g 0%nat t) with 0 in K by ring. rewrite Rminus_0_r in K.
    replace (M * u ^ S n) with (M * u ^ n * u) by (cbn [pow]; ring). apply K.
    + intros s Hs. apply (is_derive_minus (V := R_NormedModule)); [|apply tpoly_deriv].
      replace (g 1%nat (t + s)) with (scal 1 (g 1%nat (t + s))) by (unfold scal; cbn; unfold mult; cbn; ring).
      apply (is_derive_comp (V := R_NormedModule) (g 0%nat) (fun s => t + s)); [apply Hd; [lia|lra]|].
      auto_derive; [exact I|ring].
    + intros s Hs. eapply Rle_trans; [apply (IH (fun k => g (S k)) t s M)|].
      * lra.
      * intros k z Hk Hz. apply Hd; [lia|lra].
      * intros z Hz. apply HM; lra.
      * assert (0 <= M) by (eapply Rle_trans; [apply Rabs_pos|apply (HM t); lra]).
        apply Rmult_le_compat_l; [assumption|]. apply pow_incr. lra.
Qed.

(** ** One step *)
Section Step.
Context (m s : nat) (a : nat -> nat -> R) (b c : nat -> R) (F : R -> (nat -> R) -> nat -> R) (t0 t1 : R) (y : nat -> R -> R).
Context (rho L M : R).
Context (Hrho : 0 < rho) (HL0 : 0 <= L) (HM0 : 0 <= M).
Context (HL : lipschitz_near m F t0 t1 y rho L).
Context (Hode : forall i t, (i < m)%nat -> t0 <= t <= t1 -> is_derive (y i) t (F t (fun l => y l t) i)).
Context (HyM : forall i t, (i < m)%nat -> t0 <= t <= t1 -> Rabs (F t (fun l => y l t) i) <= M).
Context (Hc : forall j, (j < s)%nat -> 0 <= c j <= 1).

(** The argument of stage j, and the stage equations. *)
Definition xst (g : nat -> R) (h : R) (K : nat -> nat -> R) (j i : nat) : R := g i + sumn j (fun l => K l i * a j l) * h.
Definition stg (t : R) (g : nat -> R) (h : R) (K : nat -> nat -> R) : Prop :=
  forall j, (j < s)%nat -> exists x, (forall i, (i < m)%nat -> x i = xst g h K j i) /\ forall i, (i < m)%nat -> K j i = F (t + c j * h) x i.
Definition step_of (g : nat -> R) (h : R) (K : nat -> nat -> R) (i : nat) : R := g i + sumn s (fun j => K j i * b j) * h.

Definition abar : R := sumn s (fun j => sumn j (fun l => Rabs (a j l))).
Definition kmax : R := M + L * rho.
Definition hmax : R := Rmin 1 (rho / 2 / (kmax * abar + M + 1)).

Lemma abar_pos : 0 <= abar.
Proof. apply sumR_nonneg. intros. apply sumR_nonneg. intros. apply Rabs_pos. Qed.
Lemma abar_row j : (j < s)%nat -> sumn j (fun l => Rabs (a j l)) <= abar.
Proof. intros H. apply (sumR_le_term s (fun j => sumn j (fun l => Rabs (a j l)))); [|exact H]. intros. apply sumR_nonneg. intros. apply Rabs_pos. Qed.
Lemma kmax_pos : 0 <= kmax.
Proof. unfold kmax. nra. Qed.
Lemma hmax_pos : 0 < hmax <= 1.
Proof.
  pose proof abar_pos. pose proof kmax_pos. assert (0 <= kmax * abar) by nra. unfold hmax. split; [|apply Rmin_l].
  apply Rmin_glb_lt; [lra|]. apply Rdiv_lt_0_compat; lra.
Qed.
Lemma hmax_use h : 0 < h <= hmax -> h * (kmax * abar + M) <= rho / 2.
Proof.
  intros [H0 H]. pose proof abar_pos as AP. pose proof kmax_pos as KP. assert (P : 0 <= kmax * abar) by nra.
  assert (H1 : h <= rho / 2 / (kmax * abar + M + 1)) by (eapply Rle_trans; [exact H|apply Rmin_r]).
  apply (Rmult_le_compat_r (kmax * abar + M + 1)) in H1; [|lra]. unfold Rdiv at 1 in H1. rewrite Rmult_assoc, Rinv_l, Rmult_1_r in H1 by lra. nra.
Qed.

Lemma y_move i t u : (i < m)%nat -> t0 <= t -> 0 <= u -> t + u <= t1 -> Rabs (y i (t + u) - y i t) <= M * u.
Proof.
  intros Hi Ht Hu Ht1. pose proof (mean_bound (fun u => y i (t + u)) (fun u => F (t + u) (fun l => y l (t + u)) i) u M Hu) as K.
  cbv beta in K. rewrite Rplus_0_r in K. apply K.
  - intros z Hz. replace (F (t + z) (fun l => y l (t + z)) i) with (scal 1 (F (t + z) (fun l => y l (t + z)) i)) by (unfold scal; cbn; unfold mult; cbn; ring).
    apply (is_derive_comp (V := R_NormedModule) (y i) (fun s => t + s)); [apply Hode; [assumption|lra]|]. auto_derive; [exact I|ring].
  - intros z Hz. apply HyM; [assumption|lra].
Qed.

(** Times of the stages stay in the interval. *)
Lemma tj_in t h j : (j < s)%nat -> t0 <= t -> 0 < h -> t + h <= t1 -> t0 <= t + c j * h <= t1 /\ 0 <= c j * h <= h.
Proof. intros Hj Ht Hh Ht1. destruct (Hc j Hj). assert (0 <= c j * h <= h) by nra. lra. Qed.

Lemma tube t h g K : t0 <= t -> 0 < h <= hmax -> t + h <= t1 -> within m (fun i => g i - y i t) (rho / 2) -> stg t g h K ->
  forall j, (j < s)%nat -> within m (fun i => xst g h K j i - y i (t + c j * h)) rho /\ within m (K j) kmax.
Proof.
  intros Ht Hh Ht1 Hg HK. induction j as [j IH] using lt_wf_ind. intros Hj.
  destruct (tj_in t h j Hj Ht ltac:(lra) Ht1) as [Tj Cj].
  assert (X : within m (fun i => xst g h K j i - y i (t + c j * h)) rho).
  { intros i Hi. unfold xst.
    replace (g i + sumn j (fun l => K l i * a j l) * h - y i (t + c j * h))
      with ((g i - y i t) + (sumn j (fun l => K l i * a j l) * h) - (y i (t + c j * h) - y i t)) by ring.
    assert (A1 := Hg i Hi). cbv beta in A1.
    assert (A2 : Rabs (sumn j (fun l => K l i * a j l)) <= kmax * abar).
    { eapply Rle_trans; [apply (sumR_abs j _ (fun l => kmax * Rabs (a j l)))|].
      - intros l Hl. rewrite Rabs_mult. apply Rmult_le_compat_r; [apply Rabs_pos|]. apply (IH l Hl); [lia|exact Hi].
      - rewrite sumR_mul_l. apply Rmult_le_compat_l; [apply kmax_pos|]. now apply abar_row. }
    assert (A3 := y_move i t (c j * h) Hi Ht (proj1 Cj) (proj2 Tj)).
    assert (A4 : M * (c j * h) <= M * h) by nra. pose proof (hmax_use h Hh) as A5.
    assert (A6 : Rabs (sumn j (fun l => K l i * a j l) * h) <= kmax * abar * h) by (rewrite Rabs_mult, (Rabs_pos_eq h) by lra; apply Rmult_le_compat_r; lra).
    unfold Rminus at 1. eapply Rle_trans; [apply Rabs_triang|]. eapply Rle_trans; [apply Rplus_le_compat_r, Rabs_triang|]. rewrite Rabs_Ropp. nra. }
  split; [exact X|]. intros i Hi. destruct (HK j Hj) as (x & Hx & E). rewrite (E i Hi).
  assert (Xx : within m (fun i => x i - y i (t + c j * h)) rho) by (intros k Hk; cbv beta; rewrite Hx by exact Hk; exact (X k Hk)).
  assert (Z : within m (fun i => y i (t + c j * h) - y i (t + c j * h)) rho) by (intros k Hk; cbv beta; rewrite Rminus_diag_eq by reflexivity; rewrite Rabs_R0; lra).
  pose proof (HL (t + c j * h) x (fun k => y k (t + c j * h)) rho Tj Xx Z Xx i Hi) as B. cbv beta in B.
  replace (F (t + c j * h) x i) with (F (t + c j * h) x i - F (t + c j * h) (fun k => y k (t + c j * h)) i + F (t + c j * h) (fun k => y k (t + c j * h)) i) by ring.
  eapply Rle_trans; [apply Rabs_triang|]. pose proof (HyM i _ Hi Tj). unfold kmax. lra.
Qed.

(** Stability. *)
Lemma stages_stable : forall n, (n <= s)%nat -> exists Lam, 0 <= Lam /\
  forall t h g g' K K' r, t0 <= t -> 0 < h <= hmax -> t + h <= t1 -> 0 <= r ->
    within m (fun i => g i - y i t) (rho / 2) -> within m (fun i => g' i - y i t) (rho / 2) ->
    stg t g h K -> stg t g' h K' -> within m (fun i => g i - g' i) r ->
    forall j, (j < n)%nat -> within m (fun i => K j i - K' j i) (Lam * r).
Proof.
  induction n as [|n IH]; intros Hn; [exists 0; split; [lra|]; intros; lia|].
  destruct IH as (Lam & HLam & B); [lia|]. set (A := sumn n (fun l => Rabs (a n l))).
  assert (HA : 0 <= A) by (apply sumR_nonneg; intros; apply Rabs_pos).
  exists (Lam + L * (1 + Lam * A)). split; [assert (0 <= Lam * A) by nra; nra|].
  intros t h g g' K K' r Ht Hh Ht1 Hr Hg Hg' HK HK' Hgg j Hj i Hi.
  specialize (B t h g g' K K' r Ht Hh Ht1 Hr Hg Hg' HK HK' Hgg).
  assert (P : 0 <= Lam * A) by nra.
  destruct (Nat.eq_dec j n) as [->|Ne].
  - destruct (tj_in t h n ltac:(lia) Ht ltac:(lra) Ht1) as [Tj Cj].
    destruct (HK n ltac:(lia)) as (x & Hx & E). destruct (HK' n ltac:(lia)) as (x' & Hx' & E').
    cbv beta. rewrite (E i Hi), (E' i Hi).
    pose proof (tube t h g K Ht Hh Ht1 Hg HK n ltac:(lia)) as [X _]. pose proof (tube t h g' K' Ht Hh Ht1 Hg' HK' n ltac:(lia)) as [X' _].
    assert (D : within m (fun i => x i - x' i) ((1 + Lam * A) * r)).
    { intros k Hk. cbv beta. rewrite Hx, Hx' by exact Hk. unfold xst.
      replace (g k + sumn n (fun l => K l k * a n l) * h - (g' k + sumn n (fun l => K' l k * a n l) * h))
        with ((g k - g' k) + (sumn n (fun l => K l k * a n l) - sumn n (fun l => K' l k * a n l)) * h) by ring.
      rewrite <- (sumn_sub R_RingLaws n). cbn [sub R_ops].
      assert (S1 : Rabs (sumn n (fun l => K l k * a n l - K' l k * a n l)) <= Lam * r * A).
      { unfold A. rewrite <- sumR_mul_l. apply sumR_abs. intros l Hl. rewrite <- Rmult_minus_distr_r, Rabs_mult.
        apply Rmult_le_compat_r; [apply Rabs_pos|]. apply (B l Hl k Hk). }
      eapply Rle_trans; [apply Rabs_triang|]. specialize (Hgg k Hk). cbv beta in Hgg. rewrite Rabs_mult, (Rabs_pos_eq h) by lra.
      pose proof hmax_pos. assert (Q : 0 <= Lam * r * A) by (assert (0 <= Lam * r) by nra; nra).
      assert (Rabs (sumn n (fun l => K l k * a n l - K' l k * a n l)) * h <= Lam * r * A * 1) by (apply Rmult_le_compat; [apply Rabs_pos|lra|exact S1|lra]). nra. }
    assert (Xx : within m (fun i => x i - y i (t + c n * h)) rho) by (intros k Hk; cbv beta; rewrite Hx by exact Hk; exact (X k Hk)).
    assert (Xx' : within m (fun i => x' i - y i (t + c n * h)) rho) by (intros k Hk; cbv beta; rewrite Hx' by exact Hk; exact (X' k Hk)).
    eapply Rle_trans; [exact (HL (t + c n * h) x x' _ Tj Xx Xx' D i Hi)|]. nra.
  - eapply Rle_trans; [exact (B j ltac:(lia) i Hi)|]. apply Rmult_le_compat_r; [exact Hr|]. nra.
Qed.

Lemma step_stable : exists Lam, 0 <= Lam /\
  forall t h g g' K K' r, t0 <= t -> 0 < h <= hmax -> t + h <= t1 -> 0 <= r ->
    within m (fun i => g i - y i t) (rho / 2) -> within m (fun i => g' i - y i t) (rho / 2) ->
    stg t g h K -> stg t g' h K' -> within m (fun i => g i - g' i) r ->
    within m (fun i => step_of g h K i - step_of g' h K' i) ((1 + Lam * h) * r).
Proof.
  destruct (stages_stable s (le_n s)) as (Lam & HLam & B). set (A := sumn s (fun j => Rabs (b j))).
  assert (HA : 0 <= A) by (apply sumR_nonneg; intros; apply Rabs_pos).
  exists (Lam * A). split; [nra|]. intros t h g g' K K' r Ht Hh Ht1 Hr Hg Hg' HK HK' Hgg i Hi.
  specialize (B t h g g' K K' r Ht Hh Ht1 Hr Hg Hg' HK HK' Hgg). cbv beta. unfold step_of.
  replace (g i + sumn s (fun j => K j i * b j) * h - (g' i + sumn s (fun j => K' j i * b j) * h))
    with ((g i - g' i) + (sumn s (fun j => K j i * b j) - sumn s (fun j => K' j i * b j)) * h) by ring.
  rewrite <- (sumn_sub R_RingLaws s). cbn [sub R_ops].
  assert (S1 : Rabs (sumn s (fun j => K j i * b j - K' j i * b j)) <= Lam * r * A).
  { unfold A. rewrite <- sumR_mul_l. apply sumR_abs. intros l Hl. rewrite <- Rmult_minus_distr_r, Rabs_mult.
    apply Rmult_le_compat_r; [apply Rabs_pos|]. apply (B l Hl i Hi). }
  eapply Rle_trans; [apply Rabs_triang|]. specialize (Hgg i Hi). cbv beta in Hgg. rewrite Rabs_mult, (Rabs_pos_eq h) by lra. nra.
Qed.
End Step.
