(** The local error of explicit Runge-Kutta methods up to order four. *)
From Coq Require Import Arith Lia List Bool Reals Lra Psatz.
From Coquelicot Require Import Coquelicot.
From Verif Require Import Outcome Scalar RealOps Matrix_model Matrix_spec Sums OdeConseq_proofs BigO_proofs OdeConv_spec OdeConv_proofs.
Import ListNotations.
Local Open Scope R_scope.

Section Local.
Context (m s p : nat) (a : nat -> nat -> R) (b c : nat -> R) (F : R -> (nat -> R) -> nat -> R) (t0 t1 : R) (Y : nat -> nat -> R -> R).
Context (rho L M : R).
Context (Hrho : 0 < rho) (HL0 : 0 <= L) (HM0 : 0 <= M).
Context (HL : lipschitz_near m F t0 t1 (Y 0%nat) rho L).
Context (Hp : (1 <= p)%nat).
Context (HF : forall i t, (i < m)%nat -> t0 <= t <= t1 -> Y 1%nat i t = F t (fun l => Y 0%nat l t) i).
Context (HD : forall k i t, (k < S p)%nat -> (i < m)%nat -> t0 <= t <= t1 -> is_derive (Y k i) t (Y (S k) i t)).
Context (HB : forall k i t, (k <= S p)%nat -> (i < m)%nat -> t0 <= t <= t1 -> Rabs (Y k i t) <= M).
Context (Hc : forall j, (j < s)%nat -> 0 <= c j <= 1).
Context (Hrow : forall j, (j < s)%nat -> c j = sumn j (fun l => a j l)).
Context (Hquad : forall r, (r < p)%nat -> sumn s (fun j => b j * c j ^ r) = 1 / INR (S r)).

Let H := hmax s a rho L M.
(** Situations: time, width and stages of a step that starts on the curve. *)
Definition sit : Type := R * R * (nat -> nat -> R).
Let tt (x : sit) := fst (fst x).
Let hh (x : sit) := snd (fst x).
Let KK (x : sit) := snd x.
Definition adm (x : sit) : Prop :=
  t0 <= tt x /\ 0 < hh x <= H /\ tt x + hh x <= t1 /\ stg m s a c F (tt x) (fun i => Y 0%nat i (tt x)) (hh x) (KK x).
Local Notation OO := (bigO adm hh).

Lemma adm_h x : adm x -> 0 < hh x <= 1.
Proof. intros (_ & Hx & _). pose proof (hmax_pos s a rho L M Hrho HL0 HM0). unfold H in Hx. lra. Qed.
Local Hint Resolve adm_h : core.

Let d (j i : nat) (x : sit) := xst a (fun i => Y 0%nat i (tt x)) (hh x) (KK x) j i - Y 0%nat i (tt x + c j * hh x).
Let kk (j i : nat) (x : sit) := KK x j i - Y 1%nat i (tt x + c j * hh x).

Lemma in_span x e : adm x -> 0 <= e <= 1 -> t0 <= tt x + e * hh x <= t1 /\ 0 <= e * hh x <= hh x.
Proof. intros (A & B & C & _) He. assert (0 <= e * hh x <= hh x) by nra. lra. Qed.
Lemma in_span0 x : adm x -> t0 <= tt x <= t1.
Proof. intros (A & B & C & _). lra. Qed.

Lemma O_Y k i : (k <= S p)%nat -> (i < m)%nat -> OO 0 (fun x => Y k i (tt x)).
Proof. intros Hk Hi. exists M. split; [exact HM0|]. intros x Dx. cbn [pow]. rewrite Rmult_1_r. apply HB; auto. now apply in_span0. Qed.

Lemma O_taylor k n i e : (k + n <= S p)%nat -> (i < m)%nat -> 0 <= e <= 1 ->
  OO n (fun x => Y k i (tt x + e * hh x) - tpoly (fun r => Y (k + r)%nat i (tt x)) n (e * hh x)).
Proof.
  intros Hk Hi He. exists M. split; [exact HM0|]. intros x Dx. destruct (in_span x e Dx He) as [S1 S2].
  pose proof (in_span0 x Dx) as S0.
  eapply Rle_trans; [replace k with (k + 0)%nat at 1 by lia; apply (taylor_bound n (fun r => Y (k + r)%nat i) (tt x) (e * hh x) M)|].
  - lra.
  - intros q z Hq Hz. replace (k + S q)%nat with (S (k + q)) by lia. apply HD; [lia|exact Hi|lra].
  - intros z Hz. apply HB; [lia|exact Hi|lra].
  - apply Rmult_le_compat_l; [exact HM0|]. apply pow_incr. lra.
Qed.

(** Defect of a quadrature formula with weights w over the first q nodes, on [0, e]. *)
Definition defect (w : nat -> R) (q : nat) (e : R) (i : nat) (x : sit) : R :=
  hh x * sumn q (fun l => w l * Y 1%nat i (tt x + c l * hh x)) - (Y 0%nat i (tt x + e * hh x) - Y 0%nat i (tt x)).
Definition dcoef (w : nat -> R) (q : nat) (e : R) (r : nat) : R :=
  (sumn q (fun l => w l * c l ^ r) - e ^ S r / INR (S r)) / INR (fact r).

Lemma O_defect w q e n i : (q <= s)%nat -> (n <= p)%nat -> (i < m)%nat -> 0 <= e <= 1 ->
  OO (S n) (fun x => defect w q e i x - sumn n (fun r => dcoef w q e r * hh x ^ S r * Y (S r) i (tt x))).
Proof.
  intros Hq Hn Hi He.
  apply (O_ext _ _ _ (fun x =>
    hh x * sumn q (fun l => w l * (Y 1%nat i (tt x + c l * hh x) - tpoly (fun r => Y (1 + r)%nat i (tt x)) n (c l * hh x)))
    - (Y 0%nat i (tt x + e * hh x) - tpoly (fun r => Y (0 + r)%nat i (tt x)) (S n) (e * hh x)))).
  - intros x Dx. unfold defect.
    rewrite (sumR_ext q (fun l => w l * (Y 1%nat i (tt x + c l * hh x) - tpoly (fun r => Y (1 + r)%nat i (tt x)) n (c l * hh x)))
      (fun l => w l * Y 1%nat i (tt x + c l * hh x) + -1 * (w l * tpoly (fun r => Y (1 + r)%nat i (tt x)) n (c l * hh x)))) by (intros; ring).
    rewrite sumR_add, sumR_mul_l. unfold tpoly.
    rewrite (sumR_ext q (fun l => w l * sumn n (fun r => (c l * hh x) ^ r / INR (fact r) * Y (1 + r)%nat i (tt x)))
      (fun l => sumn n (fun r => w l * c l ^ r * (hh x ^ r / INR (fact r) * Y (S r) i (tt x)))))
      by (intros l Hl; rewrite <- sumR_mul_l; apply sumR_ext; intros r Hr; rewrite Rpow_mult_distr; unfold Rdiv; cbn [Nat.add]; ring).
    rewrite sumR_swap. rewrite (sumR_first n (fun r => (e * hh x) ^ r / INR (fact r) * Y (0 + r)%nat i (tt x))).
    rewrite (sumR_ext n (fun r => dcoef w q e r * hh x ^ S r * Y (S r) i (tt x))
      (fun r => hh x * sumn q (fun l => w l * c l ^ r * (hh x ^ r / INR (fact r) * Y (S r) i (tt x)))
         + -1 * ((e * hh x) ^ S r / INR (fact (S r)) * Y (0 + S r)%nat i (tt x)))).
    + rewrite sumR_add, !sumR_mul_l. cbn [pow fact Nat.add INR]. field.
    + intros r Hr. rewrite sumR_mul_r. unfold dcoef. rewrite fact_simpl, mult_INR, Rpow_mult_distr. cbn [pow Nat.add]. field.
      split; first [apply INR_fact_neq_0|apply not_0_INR; lia].
  - apply O_sub; [|apply O_taylor; auto; lia].
    apply O_mulh; [auto|]. apply (O_sum _ _ n q (fun l x => w l * (Y 1%nat i (tt x + c l * hh x) - tpoly (fun r => Y (1 + r)%nat i (tt x)) n (c l * hh x)))).
    intros l Hl. apply O_scal. apply O_taylor; [lia|exact Hi|apply Hc; lia].
Qed.

Lemma d_split j i x : d j i x = hh x * sumn j (fun l => a j l * kk l i x) + defect (a j) j (c j) i x.
Proof.
  unfold d, kk, defect, xst.
  rewrite (sumR_ext j (fun l => a j l * (KK x l i - Y 1%nat i (tt x + c l * hh x)))
     (fun l => KK x l i * a j l + -1 * (a j l * Y 1%nat i (tt x + c l * hh x)))) by (intros; ring).
  rewrite sumR_add, sumR_mul_l. ring.
Qed.
Lemma O_hpow k : OO k (fun x => hh x ^ k).
Proof. exists 1. split; [lra|]. intros x Dx. destruct (adm_h x Dx). rewrite Rabs_pos_eq by (apply pow_le; lra). lra. Qed.
Lemma O_term C k i : (k <= p)%nat -> (i < m)%nat -> OO (S k) (fun x => C * hh x ^ S k * Y (S k) i (tt x)).
Proof.
  intros Hk Hi. apply (O_ext _ _ _ (fun x => C * (hh x ^ S k * Y (S k) i (tt x)))); [intros; ring|]. apply O_scal.
  replace (S k) with (S k + 0)%nat at 1 by lia. apply O_mul; [apply O_hpow|apply O_Y; [lia|exact Hi]].
Qed.

(** Close to the curve the right-hand side passes remainders on. *)
Lemma stage_eq j x : adm x -> (j < s)%nat -> exists z, (forall i, (i < m)%nat -> z i = Y 0%nat i (tt x + c j * hh x) + d j i x) /\
  (forall i, (i < m)%nat -> KK x j i = F (tt x + c j * hh x) z i) /\ within m (fun i => z i - Y 0%nat i (tt x + c j * hh x)) rho.
Proof.
  intros Dx Hj. pose proof Dx as (A1 & A2 & A3 & A4). destruct (A4 j Hj) as (z & Hz & E). exists z.
  split; [intros i Hi; rewrite Hz by exact Hi; unfold d; ring|]. split; [exact E|].
  assert (Z0 : within m (fun i => Y 0%nat i (tt x) - Y 0%nat i (tt x)) (rho / 2)) by (intros i Hi; cbv beta; rewrite Rminus_diag_eq by reflexivity; rewrite Rabs_R0; lra).
  pose proof (tube m s a c F t0 t1 (Y 0%nat) rho L M Hrho HL0 HM0 HL) as T.
  assert (Q1 : forall i t, (i < m)%nat -> t0 <= t <= t1 -> is_derive (Y 0%nat i) t (F t (fun l => Y 0%nat l t) i)).
  { intros i t Hi Ht. rewrite <- HF by assumption. apply HD; [lia|assumption|assumption]. }
  assert (Q2 : forall i t, (i < m)%nat -> t0 <= t <= t1 -> Rabs (F t (fun l => Y 0%nat l t) i) <= M).
  { intros i t Hi Ht. rewrite <- HF by assumption. apply HB; [lia|assumption|assumption]. }
  specialize (T Q1 Q2 Hc (tt x) (hh x) (fun i => Y 0%nat i (tt x)) (KK x) A1 A2 A3 Z0 A4 j Hj). destruct T as [T _].
  intros i Hi. cbv beta. rewrite Hz by exact Hi. exact (T i Hi).
Qed.

Lemma lip_O n j : (j < s)%nat -> (forall i, (i < m)%nat -> OO n (d j i)) -> forall i, (i < m)%nat -> OO n (kk j i).
Proof.
  intros Hj Hd i Hi. destruct (O_unif _ _ adm_h n m (fun i => d j i) Hd) as (C & HC & B). exists (L * C). split; [nra|].
  intros x Dx. destruct (stage_eq j x Dx Hj) as (z & Hz & E & W). unfold kk. rewrite (E i Hi).
  destruct (in_span x (c j) Dx (Hc j Hj)) as [S1 _]. rewrite HF by assumption.
  assert (Z0 : within m (fun i => Y 0%nat i (tt x + c j * hh x) - Y 0%nat i (tt x + c j * hh x)) rho) by (intros k Hk; cbv beta; rewrite Rminus_diag_eq by reflexivity; rewrite Rabs_R0; lra).
  rewrite Rmult_assoc. apply (HL _ z (fun l => Y 0%nat l (tt x + c j * hh x)) (C * hh x ^ n) S1 W Z0); [|exact Hi].
  intros k Hk. cbv beta. rewrite Hz by exact Hk. replace (Y 0%nat k (tt x + c j * hh x) + d j k x - Y 0%nat k (tt x + c j * hh x)) with (d j k x) by ring.
  now apply B.
Qed.

(** Stage order one. *)
Lemma stages_O2 : forall j, (j < s)%nat -> (forall i, (i < m)%nat -> OO 2 (d j i)) /\ (forall i, (i < m)%nat -> OO 2 (kk j i)).
Proof.
  induction j as [j IH] using lt_wf_ind. intros Hj.
  assert (A : forall i, (i < m)%nat -> OO 2 (d j i)).
  { intros i Hi. apply (O_ext _ _ _ (fun x => hh x * sumn j (fun l => a j l * kk l i x) + defect (a j) j (c j) i x)); [intros; symmetry; apply d_split|].
    apply O_add.
    - apply (O_weak _ _ adm_h 3); [lia|]. apply O_mulh; [auto|]. apply (O_sum _ _ 2 j (fun l x => a j l * kk l i x)). intros l Hl. apply O_scal. apply IH; [exact Hl|lia|exact Hi].
    - apply (O_ext _ _ _ (fun x => defect (a j) j (c j) i x - sumn 1 (fun r => dcoef (a j) j (c j) r * hh x ^ S r * Y (S r) i (tt x)))); [|apply O_defect; auto; lia].
      intros x Dx. rewrite sumR_S. cbn [sumn]. cbn [zero R_ops]. replace (dcoef (a j) j (c j) 0) with 0; [cbn; ring|].
      unfold dcoef. rewrite (sumR_ext j (fun l => a j l * c l ^ 0) (fun l => a j l)) by (intros; cbn; ring). rewrite <- Hrow by exact Hj. cbn. field. }
  split; [exact A|]. intros i Hi. now apply lip_O.
Qed.

(** The local error: step minus curve. *)
Definition local (i : nat) (x : sit) : R := step_of s b (fun i => Y 0%nat i (tt x)) (hh x) (KK x) i - Y 0%nat i (tt x + hh x).
Lemma local_split i x : local i x = hh x * sumn s (fun j => b j * kk j i x) + defect b s 1 i x.
Proof.
  unfold local, step_of, kk, defect.
  rewrite (sumR_ext s (fun j => b j * (KK x j i - Y 1%nat i (tt x + c j * hh x)))
     (fun j => KK x j i * b j + -1 * (b j * Y 1%nat i (tt x + c j * hh x)))) by (intros; ring).
  rewrite sumR_add, sumR_mul_l, Rmult_1_l. ring.
Qed.
Lemma local_O : (forall i, (i < m)%nat -> OO p (fun x => sumn s (fun j => b j * kk j i x))) ->
  forall i, (i < m)%nat -> OO (S p) (local i).
Proof.
  intros HK i Hi. apply (O_ext _ _ _ (fun x => hh x * sumn s (fun j => b j * kk j i x) + defect b s 1 i x)); [intros; symmetry; apply local_split|].
  apply O_add; [apply O_mulh; [auto|]; now apply HK|].
  apply (O_ext _ _ _ (fun x => defect b s 1 i x - sumn p (fun r => dcoef b s 1 r * hh x ^ S r * Y (S r) i (tt x)))); [|apply O_defect; auto; lra].
  intros x Dx. rewrite (sumR_ext p _ (fun _ => 0)); [rewrite sumR_zero; ring|]. intros r Hr. unfold dcoef. rewrite Hquad by exact Hr. rewrite pow1.
  unfold Rdiv. ring.
Qed.
Theorem local_2 : (p <= 2)%nat -> forall i, (i < m)%nat -> OO (S p) (local i).
Proof.
  intros H2. apply local_O. intros i Hi. apply (O_weak _ _ adm_h 2); [exact H2|].
  apply (O_sum _ _ 2 s (fun j x => b j * kk j i x)). intros j Hj. apply O_scal. now apply stages_O2.
Qed.

(** ** Orders three and four *)
Context (J : nat -> nat -> nat -> R -> R) (Q MJ : R) (HMJ : 0 <= MJ).
Context (HJ : forall t e r i, t0 <= t <= t1 -> within m e r -> r <= rho -> (i < m)%nat ->
     Rabs (F t (fun l => Y 0%nat l t + e l) i - F t (fun l => Y 0%nat l t) i - sumn m (fun l => J 0%nat i l t * e l)) <= Q * r ^ 2).
Context (HJd : forall k i l t, (k < p - 2)%nat -> (i < m)%nat -> (l < m)%nat -> t0 <= t <= t1 -> is_derive (J k i l) t (J (S k) i l t)).
Context (HJb : forall k i l t, (k <= p - 2)%nat -> (i < m)%nat -> (l < m)%nat -> t0 <= t <= t1 -> Rabs (J k i l t) <= MJ).

Lemma O_J k i l : (k <= p - 2)%nat -> (i < m)%nat -> (l < m)%nat -> OO 0 (fun x => J k i l (tt x)).
Proof. intros Hk Hi Hl. exists MJ. split; [exact HMJ|]. intros x Dx. cbn [pow]. rewrite Rmult_1_r. apply HJb; auto. now apply in_span0. Qed.
Lemma O_Jc i l e : (i < m)%nat -> (l < m)%nat -> 0 <= e <= 1 -> OO 0 (fun x => J 0%nat i l (tt x + e * hh x)).
Proof. intros Hi Hl He. exists MJ. split; [exact HMJ|]. intros x Dx. cbn [pow]. rewrite Rmult_1_r. apply HJb; auto; [lia|]. now apply in_span. Qed.
Lemma O_taylorJ n i l e : (n <= p - 2)%nat -> (i < m)%nat -> (l < m)%nat -> 0 <= e <= 1 ->
  OO n (fun x => J 0%nat i l (tt x + e * hh x) - tpoly (fun r => J r i l (tt x)) n (e * hh x)).
Proof.
  intros Hn Hi Hl He. exists MJ. split; [exact HMJ|]. intros x Dx. destruct (in_span x e Dx He) as [S1 S2].
  pose proof (in_span0 x Dx) as S0.
  eapply Rle_trans; [apply (taylor_bound n (fun r => J r i l) (tt x) (e * hh x) MJ)|].
  - lra.
  - intros q z Hq Hz. apply HJd; [lia|exact Hi|exact Hl|lra].
  - intros z Hz. apply HJb; [lia|exact Hi|exact Hl|lra].
  - apply Rmult_le_compat_l; [exact HMJ|]. apply pow_incr. lra.
Qed.

Lemma lin_O j i : (j < s)%nat -> (i < m)%nat ->
  OO 4 (fun x => kk j i x - sumn m (fun l => J 0%nat i l (tt x + c j * hh x) * d j l x)).
Proof.
  intros Hj Hi. destruct (O_unif _ _ adm_h 2 m (fun i => d j i) (proj1 (stages_O2 j Hj))) as (C & HC & B).
  apply (O_const _ _ adm_h 4 _ (Rmax (Q * C ^ 2) ((L + 2) * C * (C / rho) + MJ * INR m * C * (C / rho)))).
  intros x Dx. destruct (stage_eq j x Dx Hj) as (z & Hz & E & W).
  destruct (in_span x (c j) Dx (Hc j Hj)) as [S1 _]. destruct (adm_h x Dx) as [h0 h1].
  assert (Bd : within m (fun l => d j l x) (C * hh x ^ 2)) by (intros k Hk; now apply B).
  assert (h2 : 0 <= hh x ^ 2) by (apply pow_le; lra).
  assert (Z0 : within m (fun i => Y 0%nat i (tt x + c j * hh x) - Y 0%nat i (tt x + c j * hh x)) rho) by (intros k Hk; cbv beta; rewrite Rminus_diag_eq by reflexivity; rewrite Rabs_R0; lra).
  assert (Wd : within m (fun l => (Y 0%nat l (tt x + c j * hh x) + d j l x) - Y 0%nat l (tt x + c j * hh x)) rho).
  { intros k Hk. cbv beta. rewrite <- Hz by exact Hk. exact (W k Hk). }
  assert (Ek : F (tt x + c j * hh x) z i = F (tt x + c j * hh x) (fun l => Y 0%nat l (tt x + c j * hh x) + d j l x) i).
  { assert (Z : within m (fun k => z k - (Y 0%nat k (tt x + c j * hh x) + d j k x)) 0).
    { intros k Hk. cbv beta. rewrite Hz by exact Hk. rewrite Rminus_diag_eq by reflexivity. rewrite Rabs_R0. lra. }
    pose proof (HL _ z (fun l => Y 0%nat l (tt x + c j * hh x) + d j l x) 0 S1 W Wd Z i Hi) as N. cbv beta in N. rewrite Rmult_0_r in N.
    pose proof (Rabs_pos (F (tt x + c j * hh x) z i - F (tt x + c j * hh x) (fun l => Y 0%nat l (tt x + c j * hh x) + d j l x) i)) as N2.
    assert (N3 : Rabs (F (tt x + c j * hh x) z i - F (tt x + c j * hh x) (fun l => Y 0%nat l (tt x + c j * hh x) + d j l x) i) = 0) by lra.
    apply Rabs_eq_0 in N3. lra. }
  assert (h4 : hh x ^ 4 = hh x ^ 2 * hh x ^ 2) by ring.
  destruct (Rle_dec (C * hh x ^ 2) rho) as [Hr|Hr].
  - eapply Rle_trans; [|apply Rmult_le_compat_r; [apply pow_le; lra|apply Rmax_l]].
    unfold kk. rewrite (E i Hi), Ek, HF by assumption.
    replace (Q * C ^ 2 * hh x ^ 4) with (Q * (C * hh x ^ 2) ^ 2) by ring. now apply HJ.
  - eapply Rle_trans; [|apply Rmult_le_compat_r; [apply pow_le; lra|apply Rmax_r]].
    apply Rnot_le_lt in Hr.
    assert (Kb : Rabs (kk j i x) <= L * (C * hh x ^ 2)).
    { unfold kk. rewrite (E i Hi), HF by assumption. apply (HL _ z (fun l => Y 0%nat l (tt x + c j * hh x)) _ S1 W Z0); [|exact Hi].
      intros k Hk. cbv beta. rewrite Hz by exact Hk. replace (Y 0%nat k (tt x + c j * hh x) + d j k x - Y 0%nat k (tt x + c j * hh x)) with (d j k x) by ring. now apply Bd. }
    assert (Sb : Rabs (sumn m (fun l => J 0%nat i l (tt x + c j * hh x) * d j l x)) <= MJ * INR m * (C * hh x ^ 2)).
    { eapply Rle_trans; [apply (sumR_abs m _ (fun _ => MJ * (C * hh x ^ 2)))|].
      - intros l Hl. rewrite Rabs_mult. apply Rmult_le_compat; try apply Rabs_pos; [apply HJb; auto; lia|now apply Bd].
      - assert (SC : forall n v, sumn n (fun _ => v) = INR n * v) by (intros n v; induction n as [|n IHn]; [cbn; ring|rewrite sumR_S, IHn, S_INR; ring]).
        rewrite SC. right. ring. }
    unfold Rminus. eapply Rle_trans; [apply Rabs_triang|]. rewrite Rabs_Ropp.
    set (u := C * hh x ^ 2) in *.
    assert (Hu : 0 < u) by lra.
    assert (U1 : u <= u * (u / rho)).
    { rewrite <- (Rmult_1_r u) at 1. apply Rmult_le_compat_l; [lra|]. apply (Rmult_le_reg_r rho); [lra|]. unfold Rdiv. rewrite Rmult_assoc, Rinv_l by lra. lra. }
    assert (U2 : ((L + 2) * C * (C / rho) + MJ * INR m * C * (C / rho)) * hh x ^ 4 = (L + 2 + MJ * INR m) * (u * (u / rho))) by (unfold u; field; lra).
    rewrite U2. assert (0 <= MJ * INR m) by (apply Rmult_le_pos; [exact HMJ|apply pos_INR]). nra.
Qed.

(** Coefficients of the stage errors. *)
Definition alpha (j : nat) : R := sumn j (fun l => a j l * c l) - c j ^ 2 / 2.
Definition beta (j : nat) : R := sumn j (fun l => a j l * c l ^ 2) / 2 - c j ^ 3 / 6.
Definition gam (j : nat) : R := sumn j (fun l => a j l * alpha l).
(** J applied to a derivative of the curve. *)
Let G (k q i : nat) (x : sit) : R := sumn m (fun l => J k i l (tt x) * Y q l (tt x)).
Let GG (i : nat) (x : sit) : R := sumn m (fun l => J 0%nat i l (tt x) * G 0 2 l x).
Lemma O_G k q i : (k <= p - 2)%nat -> (q <= S p)%nat -> (i < m)%nat -> OO 0 (G k q i).
Proof.
  intros Hk Hq Hi. apply (O_sum _ _ 0 m (fun l x => J k i l (tt x) * Y q l (tt x))). intros l Hl.
  exact (O_mul _ _ 0 0 _ _ (O_J k i l Hk Hi Hl) (O_Y q l Hq Hl)).
Qed.

Lemma dc0 j : (j < s)%nat -> dcoef (a j) j (c j) 0 = 0.
Proof. intros Hj. unfold dcoef. rewrite (sumR_ext j (fun l => a j l * c l ^ 0) (fun l => a j l)) by (intros; cbn; ring). rewrite <- Hrow by exact Hj. cbn. field. Qed.
Lemma dc1 j : dcoef (a j) j (c j) 1 = alpha j.
Proof. unfold dcoef, alpha. rewrite (sumR_ext j (fun l => a j l * c l ^ 1) (fun l => a j l * c l)) by (intros; cbn; ring). cbn. field. Qed.
Lemma dc2 j : dcoef (a j) j (c j) 2 = beta j.
Proof. unfold dcoef, beta. cbn [fact INR Nat.mul Nat.add]. field. Qed.

Lemma d_O3 j i : (2 <= p)%nat -> (j < s)%nat -> (i < m)%nat -> OO 3 (fun x => d j i x - alpha j * hh x ^ 2 * Y 2%nat i (tt x)).
Proof.
  intros H2 Hj Hi.
  apply (O_ext _ _ _ (fun x => hh x * sumn j (fun l => a j l * kk l i x)
    + (defect (a j) j (c j) i x - sumn 2 (fun r => dcoef (a j) j (c j) r * hh x ^ S r * Y (S r) i (tt x))))).
  - intros x Dx. rewrite d_split, !sumR_S, (dc0 j Hj), dc1. cbn [sumn zero R_ops]. ring.
  - apply O_add; [|apply O_defect; auto; lia]. apply O_mulh; [auto|]. apply (O_sum _ _ 2 j (fun l x => a j l * kk l i x)).
    intros l Hl. apply O_scal. apply stages_O2; [lia|exact Hi].
Qed.

Lemma kk_O3 j i : (3 <= p)%nat -> (j < s)%nat -> (i < m)%nat -> OO 3 (fun x => kk j i x - alpha j * hh x ^ 2 * G 0 2 i x).
Proof.
  intros H3 Hj Hi.
  apply (O_ext _ _ _ (fun x => (kk j i x - sumn m (fun l => J 0%nat i l (tt x + c j * hh x) * d j l x))
    + sumn m (fun l => (J 0%nat i l (tt x + c j * hh x) - tpoly (fun r => J r i l (tt x)) 1 (c j * hh x)) * d j l x
                       + J 0%nat i l (tt x) * (d j l x - alpha j * hh x ^ 2 * Y 2%nat l (tt x))))).
  - intros x Dx. unfold G.
    rewrite (sumR_ext m (fun l => (J 0%nat i l (tt x + c j * hh x) - tpoly (fun r => J r i l (tt x)) 1 (c j * hh x)) * d j l x
                       + J 0%nat i l (tt x) * (d j l x - alpha j * hh x ^ 2 * Y 2%nat l (tt x)))
      (fun l => J 0%nat i l (tt x + c j * hh x) * d j l x + - (alpha j * hh x ^ 2) * (J 0%nat i l (tt x) * Y 2%nat l (tt x))))
      by (intros l Hl; unfold tpoly; cbn; field).
    rewrite sumR_add, sumR_mul_l. ring.
  - apply O_add; [apply (O_weak _ _ adm_h 4); [lia|]; now apply lin_O|].
    apply (O_sum _ _ 3 m (fun l x => (J 0%nat i l (tt x + c j * hh x) - tpoly (fun r => J r i l (tt x)) 1 (c j * hh x)) * d j l x
                       + J 0%nat i l (tt x) * (d j l x - alpha j * hh x ^ 2 * Y 2%nat l (tt x)))).
    intros l Hl. apply O_add.
    + apply (O_mul _ _ 1 2); [apply O_taylorJ; auto; lia|]. apply stages_O2; auto.
    + apply (O_bound _ _ adm_h 3); [apply O_J; auto; lia| |lia]. apply d_O3; auto; lia.
Qed.

Theorem local_3 : p = 3%nat -> sumn s (fun j => b j * alpha j) = 0 -> forall i, (i < m)%nat -> OO (S p) (local i).
Proof.
  intros E3 Ha. apply local_O. intros i Hi.
  apply (O_ext _ _ _ (fun x => sumn s (fun j => b j * (kk j i x - alpha j * hh x ^ 2 * G 0 2 i x)))).
  - intros x Dx. rewrite (sumR_ext s _ (fun j => b j * kk j i x + - (hh x ^ 2 * G 0 2 i x) * (b j * alpha j))) by (intros; ring).
    rewrite sumR_add, sumR_mul_l, Ha. ring.
  - rewrite E3. apply (O_sum _ _ 3 s (fun j x => b j * (kk j i x - alpha j * hh x ^ 2 * G 0 2 i x))). intros j Hj. apply O_scal. apply kk_O3; auto; lia.
Qed.

Lemma d_O4 j i : (3 <= p)%nat -> (j < s)%nat -> (i < m)%nat ->
  OO 4 (fun x => d j i x - alpha j * hh x ^ 2 * Y 2%nat i (tt x) - beta j * hh x ^ 3 * Y 3%nat i (tt x) - gam j * hh x ^ 3 * G 0 2 i x).
Proof.
  intros H3 Hj Hi.
  apply (O_ext _ _ _ (fun x => hh x * sumn j (fun l => a j l * (kk l i x - alpha l * hh x ^ 2 * G 0 2 i x))
    + (defect (a j) j (c j) i x - sumn 3 (fun r => dcoef (a j) j (c j) r * hh x ^ S r * Y (S r) i (tt x))))).
  - intros x Dx. rewrite d_split, !sumR_S, (dc0 j Hj), dc1, dc2. cbn [sumn zero R_ops].
    rewrite (sumR_ext j (fun l => a j l * (kk l i x - alpha l * hh x ^ 2 * G 0 2 i x))
      (fun l => a j l * kk l i x + - (hh x ^ 2 * G 0 2 i x) * (a j l * alpha l))) by (intros; ring).
    rewrite sumR_add, sumR_mul_l. unfold gam. ring.
  - apply O_add; [|apply O_defect; auto; lia]. apply O_mulh; [auto|].
    apply (O_sum _ _ 3 j (fun l x => a j l * (kk l i x - alpha l * hh x ^ 2 * G 0 2 i x))).
    intros l Hl. apply O_scal. apply kk_O3; auto; lia.
Qed.

Lemma kk_O4 j i : (4 <= p)%nat -> (j < s)%nat -> (i < m)%nat ->
  OO 4 (fun x => kk j i x - alpha j * hh x ^ 2 * G 0 2 i x
                 - hh x ^ 3 * (c j * alpha j * G 1 2 i x + beta j * G 0 3 i x + gam j * GG i x)).
Proof.
  intros H4 Hj Hi.
  set (W := fun l (x : sit) => (J 0%nat i l (tt x + c j * hh x) - tpoly (fun r => J r i l (tt x)) 2 (c j * hh x)) * d j l x
    + (J 0%nat i l (tt x) * (d j l x - alpha j * hh x ^ 2 * Y 2%nat l (tt x) - beta j * hh x ^ 3 * Y 3%nat l (tt x) - gam j * hh x ^ 3 * G 0 2 l x)
       + c j * (hh x * (J 1%nat i l (tt x) * (d j l x - alpha j * hh x ^ 2 * Y 2%nat l (tt x)))))).
  apply (O_ext _ _ _ (fun x => (kk j i x - sumn m (fun l => J 0%nat i l (tt x + c j * hh x) * d j l x)) + sumn m (fun l => W l x))).
  - intros x Dx. unfold GG.
    rewrite (sumR_ext m (fun l => W l x)
      (fun l => J 0%nat i l (tt x + c j * hh x) * d j l x + (- (alpha j * hh x ^ 2) * (J 0%nat i l (tt x) * Y 2%nat l (tt x))
         + (- (c j * alpha j * hh x ^ 3) * (J 1%nat i l (tt x) * Y 2%nat l (tt x))
         + (- (beta j * hh x ^ 3) * (J 0%nat i l (tt x) * Y 3%nat l (tt x))
         + - (gam j * hh x ^ 3) * (J 0%nat i l (tt x) * G 0 2 l x)))))).
    2:{ intros l Hl. unfold W, tpoly. rewrite !sumR_S. cbn [sumn zero R_ops pow fact INR Nat.mul Nat.add]. field. }
    rewrite !sumR_add, !sumR_mul_l. fold (G 0 2 i x). fold (G 1 2 i x). fold (G 0 3 i x). ring.
  - apply O_add; [now apply lin_O|]. apply (O_sum _ _ 4 m W). intros l Hl. unfold W. apply O_add; [|apply O_add].
    + apply (O_mul _ _ 2 2); [apply O_taylorJ; auto; lia|]. apply stages_O2; auto.
    + apply (O_bound _ _ adm_h 4); [apply O_J; auto; lia| |lia]. apply d_O4; auto; lia.
    + apply O_scal. apply O_mulh; [auto|]. apply (O_bound _ _ adm_h 3); [apply O_J; auto; lia| |lia]. apply d_O3; auto; lia.
Qed.

Theorem local_4 : p = 4%nat -> sumn s (fun j => b j * alpha j) = 0 -> sumn s (fun j => b j * (c j * alpha j)) = 0 ->
  sumn s (fun j => b j * beta j) = 0 -> sumn s (fun j => b j * gam j) = 0 -> forall i, (i < m)%nat -> OO (S p) (local i).
Proof.
  intros E4 Ha Hca Hb Hg. apply local_O. intros i Hi.
  apply (O_ext _ _ _ (fun x => sumn s (fun j => b j * (kk j i x - alpha j * hh x ^ 2 * G 0 2 i x
                 - hh x ^ 3 * (c j * alpha j * G 1 2 i x + beta j * G 0 3 i x + gam j * GG i x))))).
  - intros x Dx. rewrite (sumR_ext s _ (fun j => b j * kk j i x + (- (hh x ^ 2 * G 0 2 i x) * (b j * alpha j)
      + (- (hh x ^ 3 * G 1 2 i x) * (b j * (c j * alpha j)) + (- (hh x ^ 3 * G 0 3 i x) * (b j * beta j) + - (hh x ^ 3 * GG i x) * (b j * gam j)))))) by (intros; ring).
    rewrite !sumR_add, !sumR_mul_l, Ha, Hca, Hb, Hg. ring.
  - rewrite E4. apply (O_sum _ _ 4 s (fun j x => b j * (kk j i x - alpha j * hh x ^ 2 * G 0 2 i x
                 - hh x ^ 3 * (c j * alpha j * G 1 2 i x + beta j * G 0 3 i x + gam j * GG i x)))). intros j Hj. apply O_scal. apply kk_O4; auto; lia.
Qed.

(** ** Order five *)
Context (Hs2 : nat -> nat -> nat -> nat -> R -> R) (Q3 MH : R) (HMH : 0 <= MH).
Context (HH3 : forall t e r i, t0 <= t <= t1 -> within m e r -> r <= rho -> (i < m)%nat ->
     Rabs (F t (fun l => Y 0%nat l t + e l) i - F t (fun l => Y 0%nat l t) i - sumn m (fun l => J 0%nat i l t * e l)
           - 1 / 2 * sumn m (fun l => sumn m (fun q => Hs2 0%nat i l q t * e l * e q))) <= Q3 * r ^ 3).
Context (HHd : forall i l q t, (i < m)%nat -> (l < m)%nat -> (q < m)%nat -> t0 <= t <= t1 -> is_derive (Hs2 0%nat i l q) t (Hs2 1%nat i l q t)).
Context (HHb : forall k i l q t, (k <= 1)%nat -> (i < m)%nat -> (l < m)%nat -> (q < m)%nat -> t0 <= t <= t1 -> Rabs (Hs2 k i l q t) <= MH).

Lemma O_H i l q : (i < m)%nat -> (l < m)%nat -> (q < m)%nat -> OO 0 (fun x => Hs2 0%nat i l q (tt x)).
Proof. intros Hi Hl Hq. exists MH. split; [exact HMH|]. intros x Dx. cbn [pow]. rewrite Rmult_1_r. apply HHb; auto. now apply in_span0. Qed.
Lemma O_taylorH i l q e : (i < m)%nat -> (l < m)%nat -> (q < m)%nat -> 0 <= e <= 1 ->
  OO 1 (fun x => Hs2 0%nat i l q (tt x + e * hh x) - Hs2 0%nat i l q (tt x)).
Proof.
  intros Hi Hl Hq He. exists MH. split; [exact HMH|]. intros x Dx. destruct (in_span x e Dx He) as [S1 S2].
  pose proof (in_span0 x Dx) as S0.
  pose proof (taylor_bound 1 (fun r => Hs2 r i l q) (tt x) (e * hh x) MH ltac:(lra)) as T. cbv beta in T.
  unfold tpoly in T. cbn [sumn zero add R_ops pow fact INR] in T.
  replace (0 + 1 / 1 * Hs2 0%nat i l q (tt x)) with (Hs2 0%nat i l q (tt x)) in T by field.
  eapply Rle_trans; [apply T|].
  - intros k z Hk Hz. replace k with 0%nat by lia. apply HHd; auto. lra.
  - intros z Hz. apply HHb; auto. lra.
  - cbn [pow]. rewrite !Rmult_1_r. apply Rmult_le_compat_l; [exact HMH|lra].
Qed.

Lemma lin2_O j i : (j < s)%nat -> (i < m)%nat ->
  OO 6 (fun x => kk j i x - sumn m (fun l => J 0%nat i l (tt x + c j * hh x) * d j l x)
                 - 1 / 2 * sumn m (fun l => sumn m (fun q => Hs2 0%nat i l q (tt x + c j * hh x) * d j l x * d j q x))).
Proof.
  intros Hj Hi. destruct (O_unif _ _ adm_h 2 m (fun i => d j i) (proj1 (stages_O2 j Hj))) as (C & HC & B).
  apply (O_const _ _ adm_h 6 _ (Rmax (Q3 * C ^ 3) ((L + MJ * INR m) * (C ^ 3 / rho ^ 2) + 1 / 2 * (MH * INR m * INR m) * (C ^ 3 / rho)))).
  intros x Dx. destruct (stage_eq j x Dx Hj) as (z & Hz & E & W).
  destruct (in_span x (c j) Dx (Hc j Hj)) as [S1 _]. destruct (adm_h x Dx) as [h0 h1].
  assert (Bd : within m (fun l => d j l x) (C * hh x ^ 2)) by (intros k Hk; now apply B).
  assert (h2 : 0 <= hh x ^ 2) by (apply pow_le; lra).
  assert (Z0 : within m (fun i => Y 0%nat i (tt x + c j * hh x) - Y 0%nat i (tt x + c j * hh x)) rho) by (intros k Hk; cbv beta; rewrite Rminus_diag_eq by reflexivity; rewrite Rabs_R0; lra).
  assert (Wd : within m (fun l => (Y 0%nat l (tt x + c j * hh x) + d j l x) - Y 0%nat l (tt x + c j * hh x)) rho).
  { intros k Hk. cbv beta. rewrite <- Hz by exact Hk. exact (W k Hk). }
  assert (Ek : F (tt x + c j * hh x) z i = F (tt x + c j * hh x) (fun l => Y 0%nat l (tt x + c j * hh x) + d j l x) i).
  { assert (Z : within m (fun k => z k - (Y 0%nat k (tt x + c j * hh x) + d j k x)) 0).
    { intros k Hk. cbv beta. rewrite Hz by exact Hk. rewrite Rminus_diag_eq by reflexivity. rewrite Rabs_R0. lra. }
    pose proof (HL _ z (fun l => Y 0%nat l (tt x + c j * hh x) + d j l x) 0 S1 W Wd Z i Hi) as N. cbv beta in N. rewrite Rmult_0_r in N.
    pose proof (Rabs_pos (F (tt x + c j * hh x) z i - F (tt x + c j * hh x) (fun l => Y 0%nat l (tt x + c j * hh x) + d j l x) i)) as N2.
    assert (N3 : Rabs (F (tt x + c j * hh x) z i - F (tt x + c j * hh x) (fun l => Y 0%nat l (tt x + c j * hh x) + d j l x) i) = 0) by lra.
    apply Rabs_eq_0 in N3. lra. }
  assert (SC : forall n v, sumn n (fun _ => v) = INR n * v) by (intros n v; induction n as [|n IHn]; [cbn; ring|rewrite sumR_S, IHn, S_INR; ring]).
  destruct (Rle_dec (C * hh x ^ 2) rho) as [Hr|Hr].
  - eapply Rle_trans; [|apply Rmult_le_compat_r; [apply pow_le; lra|apply Rmax_l]].
    unfold kk. rewrite (E i Hi), Ek, HF by assumption.
    replace (Q3 * C ^ 3 * hh x ^ 6) with (Q3 * (C * hh x ^ 2) ^ 3) by ring. now apply HH3.
  - eapply Rle_trans; [|apply Rmult_le_compat_r; [apply pow_le; lra|apply Rmax_r]].
    apply Rnot_le_lt in Hr.
    assert (Kb : Rabs (kk j i x) <= L * (C * hh x ^ 2)).
    { unfold kk. rewrite (E i Hi), HF by assumption. apply (HL _ z (fun l => Y 0%nat l (tt x + c j * hh x)) _ S1 W Z0); [|exact Hi].
      intros k Hk. cbv beta. rewrite Hz by exact Hk. replace (Y 0%nat k (tt x + c j * hh x) + d j k x - Y 0%nat k (tt x + c j * hh x)) with (d j k x) by ring. now apply Bd. }
    assert (Sb : Rabs (sumn m (fun l => J 0%nat i l (tt x + c j * hh x) * d j l x)) <= MJ * INR m * (C * hh x ^ 2)).
    { eapply Rle_trans; [apply (sumR_abs m _ (fun _ => MJ * (C * hh x ^ 2)))|].
      - intros l Hl. rewrite Rabs_mult. apply Rmult_le_compat; try apply Rabs_pos; [apply HJb; auto; lia|now apply Bd].
      - rewrite SC. right. ring. }
    assert (Tb : Rabs (sumn m (fun l => sumn m (fun q => Hs2 0%nat i l q (tt x + c j * hh x) * d j l x * d j q x))) <= MH * INR m * INR m * (C * hh x ^ 2) ^ 2).
    { eapply Rle_trans; [apply (sumR_abs m _ (fun _ => MH * INR m * (C * hh x ^ 2) ^ 2))|].
      - intros l Hl. eapply Rle_trans; [apply (sumR_abs m _ (fun _ => MH * (C * hh x ^ 2) * (C * hh x ^ 2)))|].
        + intros q Hq. rewrite !Rabs_mult. apply Rmult_le_compat; try apply Rabs_pos; [apply Rmult_le_pos; apply Rabs_pos| |now apply Bd].
          apply Rmult_le_compat; try apply Rabs_pos; [apply HHb; auto; lia|now apply Bd].
        + rewrite SC. right. ring.
      - rewrite SC. right. ring. }
    set (u := C * hh x ^ 2) in *.
    set (S := sumn m (fun l => J 0%nat i l (tt x + c j * hh x) * d j l x)) in *.
    set (T := sumn m (fun l => sumn m (fun q => Hs2 0%nat i l q (tt x + c j * hh x) * d j l x * d j q x))) in *.
    assert (Hu : 0 < u) by lra.
    assert (V : 1 <= u / rho). { apply (Rmult_le_reg_r rho); [lra|]. unfold Rdiv. rewrite Rmult_assoc, Rinv_l by lra. lra. }
    assert (V2 : 1 <= (u / rho) ^ 2) by (rewrite <- (pow1 2); apply pow_incr; lra).
    assert (U1 : u <= u * (u / rho) ^ 2). { rewrite <- (Rmult_1_r u) at 1. apply Rmult_le_compat_l; lra. }
    assert (U3 : u ^ 2 <= u ^ 2 * (u / rho)). { rewrite <- (Rmult_1_r (u ^ 2)) at 1. apply Rmult_le_compat_l; [apply pow_le; lra|exact V]. }
    assert (U2 : ((L + MJ * INR m) * (C ^ 3 / rho ^ 2) + 1 / 2 * (MH * INR m * INR m) * (C ^ 3 / rho)) * hh x ^ 6
      = (L + MJ * INR m) * (u * (u / rho) ^ 2) + 1 / 2 * (MH * INR m * INR m) * (u ^ 2 * (u / rho))) by (unfold u; field; lra).
    rewrite U2. assert (N1 : 0 <= MJ * INR m) by (apply Rmult_le_pos; [exact HMJ|apply pos_INR]).
    assert (N2 : 0 <= MH * INR m * INR m) by (apply Rmult_le_pos; [apply Rmult_le_pos; [exact HMH|apply pos_INR]|apply pos_INR]).
    assert (A1 : L * u <= L * (u * (u / rho) ^ 2)) by (apply Rmult_le_compat_l; assumption).
    assert (A2 : MJ * INR m * u <= MJ * INR m * (u * (u / rho) ^ 2)) by (apply Rmult_le_compat_l; assumption).
    assert (A3 : MH * INR m * INR m * u ^ 2 <= MH * INR m * INR m * (u ^ 2 * (u / rho))) by (apply Rmult_le_compat_l; assumption).
    assert (A4 : Rabs (kk j i x - S - 1 / 2 * T) <= Rabs (kk j i x) + Rabs S + 1 / 2 * Rabs T).
    { unfold Rminus. eapply Rle_trans; [apply Rabs_triang|]. apply Rplus_le_compat; [eapply Rle_trans; [apply Rabs_triang|]; rewrite Rabs_Ropp; lra|].
      rewrite Rabs_Ropp, Rabs_mult, (Rabs_pos_eq (1 / 2)) by lra. lra. }
    lra.
Qed.

(** Further coefficients of the stage errors. *)
Definition delt (j : nat) : R := sumn j (fun l => a j l * c l ^ 3) / 6 - c j ^ 4 / 24.
Definition aca (j : nat) : R := sumn j (fun l => a j l * (c l * alpha l)).
Definition abe (j : nat) : R := sumn j (fun l => a j l * beta l).
Definition aga (j : nat) : R := sumn j (fun l => a j l * gam l).
(** J or one of its derivatives applied to a vector. *)
Let JA (k : nat) (v : nat -> sit -> R) (i : nat) (x : sit) : R := sumn m (fun l => J k i l (tt x) * v l x).
Let HYY (i : nat) (x : sit) : R := sumn m (fun l => sumn m (fun q => Hs2 0%nat i l q (tt x) * Y 2%nat l (tt x) * Y 2%nat q (tt x))).
Lemma O_JA k v i : (k <= p - 2)%nat -> (i < m)%nat -> (forall l, (l < m)%nat -> OO 0 (v l)) -> OO 0 (JA k v i).
Proof.
  intros Hk Hi Hv. apply (O_sum _ _ 0 m (fun l x => J k i l (tt x) * v l x)). intros l Hl.
  exact (O_mul _ _ 0 0 _ _ (O_J k i l Hk Hi Hl) (Hv l Hl)).
Qed.
Lemma dc3 j : dcoef (a j) j (c j) 3 = delt j.
Proof. unfold dcoef, delt. cbn [fact INR Nat.mul Nat.add]. field. Qed.

Let D3 (j i : nat) (x : sit) : R := alpha j * hh x ^ 2 * Y 2%nat i (tt x).
Let D4 (j i : nat) (x : sit) : R := D3 j i x + hh x ^ 3 * (beta j * Y 3%nat i (tt x) + gam j * G 0 2 i x).
Let D5 (j i : nat) (x : sit) : R := D4 j i x + hh x ^ 4 * (delt j * Y 4%nat i (tt x) + aca j * G 1 2 i x + abe j * G 0 3 i x + aga j * GG i x).

Lemma d_O5 j i : (4 <= p)%nat -> (j < s)%nat -> (i < m)%nat -> OO 5 (fun x => d j i x - D5 j i x).
Proof.
  intros H4 Hj Hi.
  apply (O_ext _ _ _ (fun x => hh x * sumn j (fun l => a j l * (kk l i x - alpha l * hh x ^ 2 * G 0 2 i x
                 - hh x ^ 3 * (c l * alpha l * G 1 2 i x + beta l * G 0 3 i x + gam l * GG i x)))
    + (defect (a j) j (c j) i x - sumn 4 (fun r => dcoef (a j) j (c j) r * hh x ^ S r * Y (S r) i (tt x))))).
  - intros x Dx. rewrite d_split, !sumR_S, (dc0 j Hj), dc1, dc2, dc3. cbn [sumn zero R_ops].
    rewrite (sumR_ext j (fun l => a j l * (kk l i x - alpha l * hh x ^ 2 * G 0 2 i x
                 - hh x ^ 3 * (c l * alpha l * G 1 2 i x + beta l * G 0 3 i x + gam l * GG i x)))
      (fun l => a j l * kk l i x + (- (hh x ^ 2 * G 0 2 i x) * (a j l * alpha l) + (- (hh x ^ 3 * G 1 2 i x) * (a j l * (c l * alpha l))
         + (- (hh x ^ 3 * G 0 3 i x) * (a j l * beta l) + - (hh x ^ 3 * GG i x) * (a j l * gam l)))))) by (intros; ring).
    rewrite !sumR_add, !sumR_mul_l. fold (gam j). fold (aca j). fold (abe j). fold (aga j). unfold D5, D4, D3. ring.
  - apply O_add; [|apply O_defect; auto; lia]. apply O_mulh; [auto|].
    apply (O_sum _ _ 4 j (fun l x => a j l * (kk l i x - alpha l * hh x ^ 2 * G 0 2 i x
                 - hh x ^ 3 * (c l * alpha l * G 1 2 i x + beta l * G 0 3 i x + gam l * GG i x)))).
    intros l Hl. apply O_scal. apply kk_O4; auto; lia.
Qed.
Lemma d_O4' j i : (3 <= p)%nat -> (j < s)%nat -> (i < m)%nat -> OO 4 (fun x => d j i x - D4 j i x).
Proof.
  intros H3 Hj Hi. eapply O_ext; [|exact (d_O4 j i H3 Hj Hi)]. intros x Dx. unfold D4, D3. ring.
Qed.

Lemma quad_O j i : (3 <= p)%nat -> (j < s)%nat -> (i < m)%nat ->
  OO 5 (fun x => sumn m (fun l => sumn m (fun q => Hs2 0%nat i l q (tt x + c j * hh x) * d j l x * d j q x)) - alpha j ^ 2 * hh x ^ 4 * HYY i x).
Proof.
  intros H3 Hj Hi.
  set (W := fun l q (x : sit) => (Hs2 0%nat i l q (tt x + c j * hh x) - Hs2 0%nat i l q (tt x)) * (d j l x * d j q x)
     + (Hs2 0%nat i l q (tt x) * ((d j l x - D3 j l x) * d j q x) + Hs2 0%nat i l q (tt x) * (D3 j l x * (d j q x - D3 j q x)))).
  apply (O_ext _ _ _ (fun x => sumn m (fun l => sumn m (fun q => W l q x)))).
  - intros x Dx. unfold HYY.
    rewrite <- sumR_mul_l. rewrite <- (sumn_sub R_RingLaws m). cbn [sub R_ops]. apply sumR_ext. intros l Hl.
    rewrite <- sumR_mul_l. rewrite <- (sumn_sub R_RingLaws m). cbn [sub R_ops]. apply sumR_ext. intros q Hq. unfold W, D3. ring.
  - apply (O_sum _ _ 5 m (fun l x => sumn m (fun q => W l q x))). intros l Hl. apply (O_sum _ _ 5 m (W l)). intros q Hq. unfold W.
    pose proof (proj1 (stages_O2 j Hj) l Hl) as Dl. pose proof (proj1 (stages_O2 j Hj) q Hq) as Dq.
    assert (D3l : OO 2 (D3 j l)). { apply (O_ext _ _ _ (fun x => d j l x - (d j l x - D3 j l x))); [intros; ring|]. apply O_sub; [exact Dl|]. apply (O_weak _ _ adm_h 3); [lia|]. unfold D3. apply d_O3; auto; lia. }
    apply O_add; [|apply O_add].
    + apply (O_mul _ _ 1 4); [now apply O_taylorH; auto|exact (O_mul _ _ 2 2 _ _ Dl Dq)].
    + apply (O_bound _ _ adm_h 5); [now apply O_H| |lia]. apply (O_mul _ _ 3 2); [unfold D3; apply d_O3; auto; lia|exact Dq].
    + apply (O_bound _ _ adm_h 5); [now apply O_H| |lia]. apply (O_mul _ _ 2 3); [exact D3l|unfold D3; apply d_O3; auto; lia].
Qed.

Definition K5 (j i : nat) (x : sit) : R :=
  c j ^ 2 * alpha j / 2 * G 2 2 i x + c j * beta j * G 1 3 i x + c j * gam j * JA 1 (G 0 2) i x + delt j * G 0 4 i x
  + aca j * JA 0 (G 1 2) i x + abe j * JA 0 (G 0 3) i x + aga j * JA 0 GG i x + alpha j ^ 2 / 2 * HYY i x.
Lemma kk_O5 j i : (5 <= p)%nat -> (j < s)%nat -> (i < m)%nat ->
  OO 5 (fun x => kk j i x - alpha j * hh x ^ 2 * G 0 2 i x
                 - hh x ^ 3 * (c j * alpha j * G 1 2 i x + beta j * G 0 3 i x + gam j * GG i x) - hh x ^ 4 * K5 j i x).
Proof.
  intros H5 Hj Hi.
  set (W := fun l (x : sit) => (J 0%nat i l (tt x + c j * hh x) - tpoly (fun r => J r i l (tt x)) 3 (c j * hh x)) * d j l x
    + (J 0%nat i l (tt x) * (d j l x - D5 j l x)
       + (c j * (hh x * (J 1%nat i l (tt x) * (d j l x - D4 j l x)))
       + c j ^ 2 / 2 * (hh x * (hh x * (J 2%nat i l (tt x) * (d j l x - D3 j l x))))))).
  apply (O_ext _ _ _ (fun x => (kk j i x - sumn m (fun l => J 0%nat i l (tt x + c j * hh x) * d j l x)
                 - 1 / 2 * sumn m (fun l => sumn m (fun q => Hs2 0%nat i l q (tt x + c j * hh x) * d j l x * d j q x)))
    + (sumn m (fun l => W l x) + 1 / 2 * (sumn m (fun l => sumn m (fun q => Hs2 0%nat i l q (tt x + c j * hh x) * d j l x * d j q x)) - alpha j ^ 2 * hh x ^ 4 * HYY i x)))).
  - intros x Dx.
    rewrite (sumR_ext m (fun l => W l x)
      (fun l => J 0%nat i l (tt x + c j * hh x) * d j l x
        + (- (alpha j * hh x ^ 2) * (J 0%nat i l (tt x) * Y 2%nat l (tt x))
        + (- (beta j * hh x ^ 3) * (J 0%nat i l (tt x) * Y 3%nat l (tt x))
        + (- (gam j * hh x ^ 3) * (J 0%nat i l (tt x) * G 0 2 l x)
        + (- (delt j * hh x ^ 4) * (J 0%nat i l (tt x) * Y 4%nat l (tt x))
        + (- (aca j * hh x ^ 4) * (J 0%nat i l (tt x) * G 1 2 l x)
        + (- (abe j * hh x ^ 4) * (J 0%nat i l (tt x) * G 0 3 l x)
        + (- (aga j * hh x ^ 4) * (J 0%nat i l (tt x) * GG l x)
        + (- (c j * alpha j * hh x ^ 3) * (J 1%nat i l (tt x) * Y 2%nat l (tt x))
        + (- (c j * beta j * hh x ^ 4) * (J 1%nat i l (tt x) * Y 3%nat l (tt x))
        + (- (c j * gam j * hh x ^ 4) * (J 1%nat i l (tt x) * G 0 2 l x)
        + - (c j ^ 2 / 2 * alpha j * hh x ^ 4) * (J 2%nat i l (tt x) * Y 2%nat l (tt x)))))))))))))).
    2:{ intros l Hl. unfold W, tpoly, D5, D4, D3. rewrite !sumR_S. cbn [sumn zero R_ops pow fact INR Nat.mul Nat.add]. field. }
    rewrite !sumR_add, !sumR_mul_l. unfold K5.
    fold (G 0 2 i x). fold (G 0 3 i x). fold (G 0 4 i x). fold (G 1 2 i x). fold (G 1 3 i x). fold (G 2 2 i x).
    fold (GG i x). fold (JA 0 (G 1 2) i x). fold (JA 0 (G 0 3) i x). fold (JA 0 GG i x). fold (JA 1 (G 0 2) i x). field.
  - apply O_add; [apply (O_weak _ _ adm_h 6); [lia|]; now apply lin2_O|]. apply O_add; [|apply O_scal, quad_O; auto; lia].
    apply (O_sum _ _ 5 m W). intros l Hl. unfold W. apply O_add; [|apply O_add; [|apply O_add]].
    + apply (O_mul _ _ 3 2); [apply O_taylorJ; auto; lia|]. apply stages_O2; auto.
    + apply (O_bound _ _ adm_h 5); [apply O_J; auto; lia| |lia]. apply d_O5; auto; lia.
    + apply O_scal. apply O_mulh; [auto|]. apply (O_bound _ _ adm_h 4); [apply O_J; auto; lia| |lia]. apply d_O4'; auto; lia.
    + apply O_scal. apply O_mulh; [auto|]. apply O_mulh; [auto|]. apply (O_bound _ _ adm_h 3); [apply O_J; auto; lia| |lia]. unfold D3. apply d_O3; auto; lia.
Qed.

Theorem local_5 : p = 5%nat -> sumn s (fun j => b j * alpha j) = 0 -> sumn s (fun j => b j * (c j * alpha j)) = 0 ->
  sumn s (fun j => b j * beta j) = 0 -> sumn s (fun j => b j * gam j) = 0 ->
  sumn s (fun j => b j * (c j ^ 2 * alpha j)) = 0 -> sumn s (fun j => b j * (c j * beta j)) = 0 -> sumn s (fun j => b j * (c j * gam j)) = 0 ->
  sumn s (fun j => b j * delt j) = 0 -> sumn s (fun j => b j * aca j) = 0 -> sumn s (fun j => b j * abe j) = 0 -> sumn s (fun j => b j * aga j) = 0 ->
  sumn s (fun j => b j * alpha j ^ 2) = 0 -> forall i, (i < m)%nat -> OO (S p) (local i).
Proof.
  intros E5 Ha Hca Hb Hg Hc2 Hcb Hcg Hd Haca Habe Haga Haa. apply local_O. intros i Hi.
  apply (O_ext _ _ _ (fun x => sumn s (fun j => b j * (kk j i x - alpha j * hh x ^ 2 * G 0 2 i x
                 - hh x ^ 3 * (c j * alpha j * G 1 2 i x + beta j * G 0 3 i x + gam j * GG i x) - hh x ^ 4 * K5 j i x)))).
  - intros x Dx. rewrite (sumR_ext s _ (fun j => b j * kk j i x + (- (hh x ^ 2 * G 0 2 i x) * (b j * alpha j)
      + (- (hh x ^ 3 * G 1 2 i x) * (b j * (c j * alpha j)) + (- (hh x ^ 3 * G 0 3 i x) * (b j * beta j) + (- (hh x ^ 3 * GG i x) * (b j * gam j)
      + (- (hh x ^ 4 / 2 * G 2 2 i x) * (b j * (c j ^ 2 * alpha j)) + (- (hh x ^ 4 * G 1 3 i x) * (b j * (c j * beta j))
      + (- (hh x ^ 4 * JA 1 (G 0 2) i x) * (b j * (c j * gam j)) + (- (hh x ^ 4 * G 0 4 i x) * (b j * delt j)
      + (- (hh x ^ 4 * JA 0 (G 1 2) i x) * (b j * aca j) + (- (hh x ^ 4 * JA 0 (G 0 3) i x) * (b j * abe j)
      + (- (hh x ^ 4 * JA 0 GG i x) * (b j * aga j) + - (hh x ^ 4 / 2 * HYY i x) * (b j * alpha j ^ 2)))))))))))))) by (intros; unfold K5; field).
    rewrite !sumR_add, !sumR_mul_l, Ha, Hca, Hb, Hg, Hc2, Hcb, Hcg, Hd, Haca, Habe, Haga, Haa. ring.
  - rewrite E5. apply (O_sum _ _ 5 s (fun j x => b j * (kk j i x - alpha j * hh x ^ 2 * G 0 2 i x
                 - hh x ^ 3 * (c j * alpha j * G 1 2 i x + beta j * G 0 3 i x + gam j * GG i x) - hh x ^ 4 * K5 j i x))). intros j Hj. apply O_scal. apply kk_O5; auto; lia.
Qed.
End Local.
