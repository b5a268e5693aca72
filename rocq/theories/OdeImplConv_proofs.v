(** Accuracy of a whole implicit Euler run, and systems on which its linear solver fails. *)
From Coq Require Import Arith Lia List Bool Reals Lra Psatz SpecFloat.
From Coquelicot Require Import Coquelicot.
From Verif Require Import Outcome Scalar RealOps Matrix_model Vector_model LU_model Decomp_model Ode_model Optim_model
  Matrix_spec LU_spec Decomp_spec Optim_spec Ode_spec Matrix_proofs Vector_proofs Sums Subst_proofs LU_proofs LUProps_proofs Norm_proofs Ode_proofs
  OdeOrder_proofs OdeConseq_proofs OdeSolve_proofs Newton_proofs OptimEx_proofs OdeConv_spec OdeImpl_spec OdeConv_proofs OdeGlobal_proofs OdeMultiConv_proofs.
Import ListNotations.
Local Open Scope R_scope.

(** ** Fixed-step runs with an invariant that depends on the grid point *)
Lemma fixed_solve_grid h step t0 t1 init (I : nat -> vector R -> Prop) :
  0 < h -> t0 <= t1 -> I 0%nat init ->
  (forall N i x, INR N - 1 < (t1 - t0) / h <= INR N -> (i <= N)%nat -> I i x ->
     exists x', step (grid t0 t1 h i) x (grid t0 t1 h (S i) - grid t0 t1 h i) = Ret x' /\ I (S i) x') ->
  exists N tv xv, INR N - 1 < (t1 - t0) / h <= INR N /\
    fixed_solve h step t0 t1 init = Ret (tv, xv) /\ length tv = S N /\ length xv = S N /\
    (forall i, (i <= N)%nat -> nth i tv 0 = grid t0 t1 h i) /\ (forall i, (i <= N)%nat -> I i (nth i xv (vzero 0))).
Proof.
  intros Hh Ht HI Hstep. unfold fixed_solve. cbn [ltb R_ops].
  replace (R_ltb t1 t0) with false by (symmetry; apply R_ltb_false; exact Ht).
  assert (Hy : 0 <= (t1 - t0) / h) by (apply Rmult_le_pos; [lra|left; apply Rinv_0_lt_compat; exact Hh]).
  destruct (steps_spec ((t1 - t0) / h) Hy) as (N & HN & HNb).
  cbv zeta. cbn [sub div R_ops]. rewrite HN.
  set (g := grid t0 t1 h).
  edestruct (for_loop_ind (fun i (st : list R * list (vector R) * R * vector R) =>
     let '(tv, xv, tn, xn) := st in
     tv = map g (seq 0 i) /\ length xv = i /\ tn = g i /\ (forall k, (k <= i)%nat -> I k (nth k (xv ++ [xn]) (vzero 0))))) as (st & Est & Hst).
  4:{ rewrite Est. cbn [bind]. destruct st as [[[tv xv] tn] xn]. destruct Hst as (Htv & Hxv & _ & HIx).
      exists N, tv, xv. split; [exact HNb|]. split; [reflexivity|].
      split; [rewrite Htv, map_length, seq_length; reflexivity|]. split; [exact Hxv|].
      split; [intros i Hi; rewrite Htv; apply nth_grid_list; lia|].
      intros i Hi; specialize (HIx i ltac:(lia)); rewrite app_nth1 in HIx by lia; exact HIx. }
  - lia.
  - repeat split; simpl; try lia; try (symmetry; apply grid_0; assumption).
    intros k Hk. replace k with 0%nat by lia. exact HI.
  - intros i [[[tv xv] tn] xn] Hi (Htv & Hxv & Htn & HIx).
    rewrite tmin_R. cbn [sub add R_ops]. rewrite Htn.
    assert (Ig : I i xn). { specialize (HIx i ltac:(lia)). rewrite <- Hxv, nth_app_last in HIx. rewrite Hxv in HIx. exact HIx. }
    rewrite (grid_h t0 t1 h Hh i : Rmin h (t1 - g i) = g (S i) - g i).
    destruct (Hstep N i xn HNb ltac:(lia) Ig) as (x' & Ex' & Ix'). unfold g. rewrite Ex'. cbn [bind]. eexists. split; [reflexivity|]. cbn beta iota.
    split; [rewrite map_seq_S, Htv; reflexivity|]. split; [rewrite app_length; simpl; lia|]. split; [fold g; ring|].
    intros k Hk. destruct (Nat.eq_dec k (S i)) as [->|].
    + replace (S i) with (length (xv ++ [xn])) at 2 by (rewrite app_length; simpl; lia). rewrite nth_app_last. exact Ix'.
    + rewrite app_nth1 by (rewrite app_length; simpl; lia). apply HIx. lia.
Qed.

(** ** Vectors in the maximum norm *)
Lemma bound_limit m (B : nat -> R) c q r : 0 <= c -> 0 <= q < 1 -> 0 <= r -> within m B r ->
  (forall b, within m B b -> 0 <= b <= r -> within m B (c + q * b)) -> within m B (c / (1 - q)).
Proof.
  intros Hc Hq Hr HBr H. set (s := c / (1 - q)). assert (Hs : 0 <= s) by (apply Rmult_le_pos; [exact Hc|left; apply Rinv_0_lt_compat; lra]).
  assert (Es : c = s * (1 - q)) by (unfold s; field; lra).
  destruct (Rle_lt_dec r s) as [Hrs|Hrs]; [intros i Hi; specialize (HBr i Hi); lra|].
  assert (P : forall k, within m B (s + q ^ k * (r - s)) /\ 0 <= q ^ k <= 1).
  { induction k as [|k (IH & Hk)]; [split; [intros i Hi; specialize (HBr i Hi); cbn; lra|cbn; lra]|]. split.
    - intros i Hi. assert (0 <= q ^ k * (r - s) <= r - s) by nra. pose proof (H _ IH ltac:(lra) i Hi) as Q. cbn [pow]. replace (s + q * q ^ k * (r - s)) with (c + q * (s + q ^ k * (r - s))) by (rewrite Es; ring). exact Q.
    - cbn [pow]. nra. }
  intros i Hi. destruct (Rle_lt_dec (Rabs (B i)) s) as [|Hlt]; [assumption|exfalso].
  set (e := Rabs (B i) - s). assert (He : 0 < e) by (unfold e; lra).
  destruct (pow_lt_1_zero q ltac:(rewrite Rabs_pos_eq; lra) (e / (r - s)) ltac:(apply Rdiv_lt_0_compat; lra)) as (k & Hk). specialize (Hk k ltac:(lia)).
  destruct (P k) as [Q Hqk]. specialize (Q i Hi). rewrite Rabs_pos_eq in Hk by lra.
  apply (Rmult_lt_compat_r (r - s)) in Hk; [|lra]. replace (e / (r - s) * (r - s)) with e in Hk by (field; lra). unfold e in Hk. lra.
Qed.
Lemma max_bound m (B : nat -> R) c : 0 <= c -> (forall b, within m B b -> 0 <= b -> within m B (c + b / 2)) -> within m B (2 * c).
Proof.
  intros Hc H.
  assert (K : exists b, 0 <= b /\ within m B b).
  { clear H. induction m as [|m (b & Hb & Hw)]; [exists 0; split; [lra|intros i Hi; lia]|]. exists (b + Rabs (B m)). pose proof (Rabs_pos (B m)). split; [lra|].
    intros i Hi. destruct (Nat.eq_dec i m) as [->|]; [lra|]. specialize (Hw i ltac:(lia)). lra. }
  destruct K as (b & Hb & Hw). replace (2 * c) with (c / (1 - 1 / 2)) by field. apply (bound_limit m B c (1 / 2) b); auto; [lra|].
  intros b' Hb' Hr. replace (1 / 2 * b') with (b' / 2) by field. apply H; [exact Hb'|lra].
Qed.
Lemma abs4 a b c d : Rabs (a + b + c + d) <= Rabs a + Rabs b + Rabs c + Rabs d.
Proof. pose proof (Rabs_triang (a + b + c) d). pose proof (Rabs_triang (a + b) c). pose proof (Rabs_triang a b). lra. Qed.
Lemma sum_within m (a B : nat -> R) L b : 0 <= L -> (forall j, (j < m)%nat -> Rabs (a j) <= L) -> within m B b -> Rabs (sumn m (fun j => a j * B j)) <= INR m * (L * b).
Proof.
  intros HL. induction m as [|m IH]; intros Ha HB; [cbn; rewrite Rabs_R0; lra|]. rewrite sumR_S, S_INR.
  eapply Rle_trans; [apply Rabs_triang|]. rewrite Rabs_mult. rewrite Rmult_plus_distr_r, Rmult_1_l. apply Rplus_le_compat.
  - apply IH; [intros j Hj; apply Ha; lia|intros j Hj; apply HB; lia].
  - apply Rmult_le_compat; [apply Rabs_pos|apply Rabs_pos|apply Ha; lia|apply (HB m); lia].
Qed.
Lemma mv_shift m J w B i : (i < m)%nat -> mv m (fun i j => J i j * w - delta i j) B i = w * sumn m (fun j => J i j * B j) - B i.
Proof.
  intros Hi. unfold mv. rewrite (sumR_ext m _ (fun j => w * (J i j * B j) + (-1) * (delta i j * B j))) by (intros; ring).
  rewrite sumR_add, !sumR_mul_l. rewrite (sumn_delta_l R_RingLaws m i B Hi : sumn m (fun j => delta i j * B j) = B i). ring.
Qed.
Lemma enorm_le m B b : 0 <= b -> within m B b -> enorm m B <= INR m * b.
Proof.
  intros Hb HB. apply Rsqr_incr_0_var; [|apply Rmult_le_pos; [apply pos_INR|exact Hb]]. unfold Rsqr at 1. rewrite enorm_sq. unfold sumsq.
  assert (H1 : sumn m (fun i => B i * B i) <= INR m * (b * b)).
  { clear - HB. induction m as [|m IH]; [cbn; lra|]. rewrite sumR_S, S_INR. assert (sumn m (fun i => B i * B i) <= INR m * (b * b)) by (apply IH; intros i Hi; apply HB; lia).
    assert (B m * B m <= b * b) by (pose proof (HB m ltac:(lia)) as Q; cbv beta in Q; apply Rabs_le_between in Q; nra). lra. }
  eapply Rle_trans; [exact H1|]. unfold Rsqr. destruct m as [|m]; [cbn; lra|]. assert (1 <= INR (S m)) by (rewrite S_INR; pose proof (pos_INR m); lra).
  assert (0 <= b * b) by nra. nra.
Qed.
Lemma within_enorm m B i : (i < m)%nat -> Rabs (B i) <= enorm m B.
Proof.
  intros Hi. apply Rsqr_incr_0_var; [|apply enorm_nonneg]. unfold Rsqr at 2. rewrite enorm_sq, <- Rsqr_abs. unfold Rsqr, sumsq.
  revert i Hi. induction m as [|m IH]; intros i Hi; [lia|]. rewrite sumR_S.
  assert (0 <= sumn m (fun i => B i * B i)) by (clear; induction m; [cbn; lra|rewrite sumR_S; nra]).
  destruct (Nat.eq_dec i m) as [->|]; [lra|]. specialize (IH i ltac:(lia)). nra.
Qed.

(** ** The run *)
Section Impl.
Context (f : R -> vector R -> outcome (vector R)) (jac : R -> vector R -> outcome (matrix R)) (m : nat).
Context (F : R -> (nat -> R) -> nat -> R) (JF : R -> (nat -> R) -> nat -> nat -> R) (t0 t1 : R) (Y : nat -> nat -> R -> R) (rho L M hs : R).
Context (Hf : forall t, computes (f t) m m (F t)) (Hj : forall t, computes_mat (jac t) m m m (JF t)).
Context (Hrho : 0 < rho) (HL0 : 0 <= L) (HM0 : 0 <= M) (Hhs : 0 < hs) (Ht : t0 <= t1).
Context (HL : lipschitz_near m F t0 t1 (Y 0%nat) rho L).
Context (HJ : forall t x i j, t0 <= t <= t1 -> within m (fun l => x l - Y 0%nat l t) rho -> (i < m)%nat -> (j < m)%nat -> Rabs (JF t x i j) <= L).
Context (HS : forall t w z g A, t0 <= t <= t1 -> 0 <= w <= hs -> is_col z m g -> within m (fun l => g l - Y 0%nat l t) rho ->
  ie_jac jac t w z = Ret A -> solver_ok A m (fun i j => JF t g i j * w - delta i j)).
Context (HF : forall i t, (i < m)%nat -> t0 <= t <= t1 -> Y 1%nat i t = F t (fun l => Y 0%nat l t) i).
Context (HD : forall k i t, (k < 2)%nat -> (i < m)%nat -> t0 <= t <= t1 -> is_derive (Y k i) t (Y (S k) i t)).
Context (HB : forall k i t, (k <= 2)%nat -> (i < m)%nat -> t0 <= t <= t1 -> Rabs (Y k i t) <= M).

Local Notation res t w g z := (fun i => g i + F t z i * w - z i).

Lemma newton_dir t w z B q : t0 <= t <= t1 -> 0 <= w -> w * L * (1 + INR m) <= 1 / 4 -> within m (fun l => z l - Y 0%nat l t) rho -> 0 <= q ->
  forall r, (forall i, (i < m)%nat -> mv m (fun i j => JF t z i j * w - delta i j) B i = r i) ->
  (within m r q -> within m B (2 * q)) /\ (within m B q -> within m r (2 * q)).
Proof.
  intros Htt Hw HwL Hz Hq r HBr.
  assert (Sb : forall b, 0 <= b -> within m B b -> forall i, (i < m)%nat -> Rabs (w * sumn m (fun j => JF t z i j * B j)) <= b / 2).
  { intros b Hb HBb i Hi. rewrite Rabs_mult, (Rabs_pos_eq w) by exact Hw.
    pose proof (sum_within m (JF t z i) B L b HL0 (fun j Hj' => HJ t z i j Htt Hz Hi Hj') HBb) as Q.
    apply Rle_trans with (w * (INR m * (L * b))); [now apply Rmult_le_compat_l|]. pose proof (pos_INR m).
    replace (w * (INR m * (L * b))) with ((w * L * INR m) * b) by ring. apply Rle_trans with (1 / 4 * b); [|lra]. apply Rmult_le_compat_r; [exact Hb|].
    assert (0 <= w * L) by nra. nra. }
  split.
  - intros Hr. apply max_bound; [exact Hq|]. intros b Hb Hb0 i Hi. pose proof (Sb b Hb0 Hb i Hi) as Q. pose proof (Hr i Hi) as Q2. cbv beta in Q2.
    pose proof (HBr i Hi) as E. rewrite mv_shift in E by exact Hi.
    replace (B i) with (w * sumn m (fun j => JF t z i j * B j) + - r i) by lra. eapply Rle_trans; [apply Rabs_triang|]. rewrite Rabs_Ropp. lra.
  - intros Hb i Hi. pose proof (Sb q Hq Hb i Hi) as Q. pose proof (Hb i Hi) as Q2. rewrite <- HBr, mv_shift by exact Hi.
    eapply Rle_trans; [apply Rabs_triang|]. rewrite Rabs_Ropp. lra.
Qed.

Lemma newton_loop t w x g tol : t0 <= t <= t1 -> 0 <= w <= hs -> w * L * (1 + INR m) <= 1 / 4 -> is_col x m g -> 0 < tol ->
  forall k z gz q d, is_col z m gz -> 0 <= q -> within m (res t w g gz) q -> within m (fun l => gz l - Y 0%nat l t) d -> 0 <= d -> d + 4 * q <= rho ->
  2 * INR m * q < tol * 2 ^ k ->
  exists s gs, find_root (S k) tol (ie_eval f t x w) (ie_jac jac t w) z = Ret (Ok s) /\ is_col s m gs /\
    within m (fun l => gs l - Y 0%nat l t) rho /\ within m (res t w g gs) (2 * tol).
Proof.
  intros Htt Hw HwL Hx Htol. induction k as [|k IH]; intros z gz q d Hz Hq Hr Hd Hd0 Hdq Hk.
  all: assert (Hzr : within m (fun l => gz l - Y 0%nat l t) rho) by (intros i Hi; specialize (Hd i Hi); cbv beta in *; lra).
  all: match goal with |- context [find_root (S ?n) _ _ _ _] =>
    destruct (find_root_step _ _ m _ _ (ie_eval_computes f m F Hf t x g w Hx) (ie_jac_computes jac m JF Hj t w) n tol z gz Hz (fun A => HS t w z gz A Htt Hw Hz Hzr)) as (B & z' & Hz' & HBr & E) end.
  all: destruct (newton_dir t w gz B q Htt (proj1 Hw) HwL Hzr Hq _ HBr) as [N1 _]; specialize (N1 Hr).
  all: destruct (newton_dir t w gz B tol Htt (proj1 Hw) HwL Hzr ltac:(lra) _ HBr) as [_ N2].
  all: rewrite E; destruct (R_ltb (enorm m B) tol) eqn:Et.
  1,3: apply R_ltb_true in Et; exists z, gz; split; [reflexivity|]; split; [exact Hz|]; split; [exact Hzr|]; apply N2; intros i Hi; pose proof (within_enorm m B i Hi); lra.
  - exfalso. apply R_ltb_false in Et. pose proof (enorm_le m B (2 * q) ltac:(lra) N1). cbn in Hk. lra.
  - assert (Hzd : within m (fun l => gz l - B l - Y 0%nat l t) (d + 2 * q)).
    { intros i Hi. specialize (Hd i Hi). specialize (N1 i Hi). cbv beta in *. replace (gz i - B i - Y 0%nat i t) with (gz i - Y 0%nat i t + - B i) by ring.
      eapply Rle_trans; [apply Rabs_triang|]. rewrite Rabs_Ropp. lra. }
    apply (IH z' _ (q / 2) (d + 2 * q) Hz'); [lra| |exact Hzd|lra|lra|cbn [pow] in Hk; lra].
    intros i Hi. cbv beta.
    assert (Hzr' : within m (fun l => gz l - B l - Y 0%nat l t) rho) by (intros l Hl; specialize (Hzd l Hl); cbv beta in *; lra).
    pose proof (HL t (fun l => gz l - B l) gz (2 * q) Htt Hzr' Hzr ltac:(intros l Hl; cbv beta; replace (gz l - B l - gz l) with (- B l) by ring; rewrite Rabs_Ropp; exact (N1 l Hl)) i Hi) as Q1. cbv beta in Q1.
    pose proof (sum_within m (JF t gz i) B L (2 * q) HL0 (fun j Hj' => HJ t gz i j Htt Hzr Hi Hj') N1) as Q2.
    pose proof (HBr i Hi) as EB. cbv beta in EB. rewrite mv_shift in EB by exact Hi.
    replace (g i + F t (fun l => gz l - B l) i * w - (gz i - B i)) with
      (w * (F t (fun l => gz l - B l) i - F t gz i) + w * sumn m (fun j => JF t gz i j * B j)) by lra.
    eapply Rle_trans; [apply Rabs_triang|]. rewrite !Rabs_mult, (Rabs_pos_eq w) by lra.
    assert (w * Rabs (F t (fun l => gz l - B l) i - F t gz i) <= w * (L * (2 * q))) by (apply Rmult_le_compat_l; lra).
    assert (w * Rabs (sumn m (fun j => JF t gz i j * B j)) <= w * (INR m * (L * (2 * q)))) by (apply Rmult_le_compat_l; lra).
    assert (w * L * (1 + INR m) * q <= 1 / 4 * q) by (apply Rmult_le_compat_r; lra). nra.
Qed.

Lemma local_back t w i : (i < m)%nat -> 0 <= w -> t0 <= t -> t + w <= t1 -> Rabs (Y 0%nat i t + Y 1%nat i (t + w) * w - Y 0%nat i (t + w)) <= 2 * M * w ^ 2.
Proof.
  intros Hi Hw H0 H1.
  pose proof (fwd_1 (fun k => Y k i) t0 t1 M 2 (le_n 2) (fun k s Hk Hs => HD k i s Hk Hi Hs) (fun k s Hk Hs => HB k i s Hk Hi Hs) t w Hw H0 H1) as Q1.
  pose proof (back_1 (fun k => Y k i) t0 t1 M 2 (le_n 2) (fun k s Hk Hs => HD k i s Hk Hi Hs) (fun k s Hk Hs => HB k i s Hk Hi Hs) 1 (t + w) w ltac:(lia) Hw ltac:(lra) H1) as Q2.
  cbv beta in Q1, Q2. replace (t + w - w) with t in Q2 by ring.
  replace (Y 0%nat i t + Y 1%nat i (t + w) * w - Y 0%nat i (t + w)) with (- (Y 0%nat i (t + w) - (Y 0%nat i t + w * Y 1%nat i t)) + - (w * (Y 1%nat i t - Y 1%nat i (t + w)))) by ring.
  eapply Rle_trans; [apply Rabs_triang|]. rewrite !Rabs_Ropp, Rabs_mult, (Rabs_pos_eq w) by exact Hw.
  assert (w * Rabs (Y 1%nat i t - Y 1%nat i (t + w)) <= w * (M * w)) by now apply Rmult_le_compat_l. cbn [pow] in *. lra.
Qed.

(** One step from within e of y(t). *)
Lemma step_error k t w x g e tol : t0 <= t -> 0 <= w <= hs -> t + w <= t1 -> w * L * (1 + INR m) <= 1 / 4 -> is_col x m g -> 0 < tol -> 0 <= e ->
  within m (fun l => g l - Y 0%nat l t) e -> e + 5 * w * (M + L * rho) <= rho -> 2 * INR m * (w * (M + L * rho)) < tol * 2 ^ k ->
  exists s gs, ie_step (S k) tol f jac t x w = Ret s /\ is_col s m gs /\
    within m (fun l => gs l - Y 0%nat l (t + w)) (exp (2 * L * w) * (e + 2 * M * w ^ 2 + 2 * tol)).
Proof.
  intros H0 Hw H1 HwL Hx Htol He Hg Hsmall Hk. set (A := M + L * rho) in *. assert (HA : 0 <= A) by (unfold A; nra).
  assert (Htt : t0 <= t + w <= t1) by lra. assert (HwA : 0 <= w * A) by nra.
  assert (Hwr : 0 <= w * L * INR m) by (pose proof (pos_INR m); assert (0 <= w * L) by nra; nra). assert (HwL1 : 0 <= w * L <= 1 / 4) by (split; nra).
  assert (Yw : forall i, (i < m)%nat -> Rabs (Y 0%nat i t - Y 0%nat i (t + w)) <= M * w).
  { intros i Hi. pose proof (back_1 (fun k => Y k i) t0 t1 M 2 (le_n 2) (fun k s Hk Hs => HD k i s Hk Hi Hs) (fun k s Hk Hs => HB k i s Hk Hi Hs) 0 (t + w) w ltac:(lia) (proj1 Hw) ltac:(lra) H1) as Q2.
    cbv beta in Q2. replace (t + w - w) with t in Q2 by ring. exact Q2. }
  assert (Hd : within m (fun l => g l - Y 0%nat l (t + w)) (e + w * A)).
  { intros i Hi. specialize (Hg i Hi). specialize (Yw i Hi). cbv beta in *. replace (g i - Y 0%nat i (t + w)) with ((g i - Y 0%nat i t) + (Y 0%nat i t - Y 0%nat i (t + w))) by ring.
    eapply Rle_trans; [apply Rabs_triang|]. assert (M * w <= w * A) by (unfold A; assert (0 <= L * rho) by nra; nra). lra. }
  assert (Zy : within m (fun l => Y 0%nat l (t + w) - Y 0%nat l (t + w)) rho) by (intros l Hl; cbv beta; rewrite Rminus_diag_eq, Rabs_R0 by reflexivity; lra).
  assert (Hdr : within m (fun l => g l - Y 0%nat l (t + w)) rho) by (intros l Hl; specialize (Hd l Hl); cbv beta in *; lra).
  assert (Hq : within m (res (t + w) w g g) (w * A)).
  { intros i Hi. cbv beta. pose proof (HL (t + w) g (fun l => Y 0%nat l (t + w)) rho Htt Hdr Zy Hdr i Hi) as Q. cbv beta in Q. rewrite <- HF in Q by assumption.
    pose proof (HB 1 i (t + w) ltac:(lia) Hi Htt) as QM.
    replace (g i + F (t + w) g i * w - g i) with (w * ((F (t + w) g i - Y 1%nat i (t + w)) + Y 1%nat i (t + w))) by ring.
    rewrite Rabs_mult, (Rabs_pos_eq w) by lra. apply Rmult_le_compat_l; [lra|]. eapply Rle_trans; [apply Rabs_triang|]. unfold A. lra. }
  destruct (newton_loop (t + w) w x g tol Htt Hw HwL Hx Htol k x g (w * A) (e + w * A) Hx HwA Hq Hd ltac:(lra) ltac:(lra) Hk) as (s & gs & E & Hs & Hrs & Hres).
  exists s, gs. unfold ie_step. cbv zeta. cbn [add R_ops]. rewrite E. cbn [bind runwrap]. split; [reflexivity|]. split; [exact Hs|].
  set (c := e + 2 * M * w ^ 2 + 2 * tol). assert (Hc : 0 <= c) by (unfold c; assert (0 <= M * w ^ 2) by (apply Rmult_le_pos; [lra|apply pow2_ge_0]); lra).
  assert (Stp : forall b, within m (fun l => gs l - Y 0%nat l (t + w)) b -> b <= rho -> 0 <= b -> within m (fun l => gs l - Y 0%nat l (t + w)) (c + w * L * b)).
  { intros b Hb Hbr Hb0 i Hi. cbv beta. pose proof (HL (t + w) gs (fun l => Y 0%nat l (t + w)) b Htt Hrs Zy Hb i Hi) as Q. cbv beta in Q. rewrite <- HF in Q by assumption.
    pose proof (local_back t w i Hi (proj1 Hw) H0 H1) as Q2. pose proof (Hres i Hi) as Q3. cbv beta in Q3. pose proof (Hg i Hi) as Q4. cbv beta in Q4.
    replace (gs i - Y 0%nat i (t + w)) with ((g i - Y 0%nat i t) + w * (F (t + w) gs i - Y 1%nat i (t + w)) + (Y 0%nat i t + Y 1%nat i (t + w) * w - Y 0%nat i (t + w)) + - (g i + F (t + w) gs i * w - gs i)) by ring.
    eapply Rle_trans; [apply abs4|].
    rewrite Rabs_Ropp, Rabs_mult, (Rabs_pos_eq w) by lra. unfold c.
    assert (w * Rabs (F (t + w) gs i - Y 1%nat i (t + w)) <= w * (L * b)) by (apply Rmult_le_compat_l; lra). lra. }
  assert (Fin : within m (fun l => gs l - Y 0%nat l (t + w)) (c / (1 - w * L))).
  { apply (bound_limit m _ c (w * L) rho); auto; [lra|lra|]. intros b Hb Hbr. apply Stp; auto; lra. }
  intros i Hi. eapply Rle_trans; [exact (Fin i Hi)|]. unfold Rdiv. rewrite Rmult_comm. apply Rmult_le_compat_r; [exact Hc|].
  apply Rmult_le_reg_l with (1 - w * L); [lra|]. rewrite Rinv_r by lra. pose proof (exp_ineq1_le (2 * L * w)) as Q. nra.
Qed.

Lemma accurate : implicit_euler_accurate f jac m t0 t1 (Y 0%nat).
Proof.
  set (T := t1 - t0). set (A := M + L * rho). set (C := exp (2 * L * T) * (1 + 2 * M * T + 2 * (T + 1))).
  assert (HT : 0 <= T) by (unfold T; lra). assert (HA : 0 <= A) by (unfold A; nra). assert (HE : 0 < exp (2 * L * T)) by apply exp_pos.
  assert (HMT : 0 <= M * T) by nra. assert (HC : 0 <= C) by (unfold C; apply Rmult_le_pos; lra). pose proof (pos_INR m) as Hm.
  set (a1 := / hs). set (a2 := 4 * (L * (1 + INR m))). set (a3 := 20 * A / rho). set (a4 := 4 * INR m * A). set (a5 := 12 * C / rho).
  assert (P1 : 0 < a1) by now apply Rinv_0_lt_compat. assert (P2 : 0 <= a2) by (unfold a2; nra).
  assert (Pr : 0 < / rho) by now apply Rinv_0_lt_compat. assert (P3 : 0 <= a3) by (unfold a3, Rdiv; apply Rmult_le_pos; lra).
  assert (P4 : 0 <= a4) by (unfold a4; apply Rmult_le_pos; lra). assert (P5 : 0 <= a5) by (unfold a5, Rdiv; apply Rmult_le_pos; lra).
  set (K := 1 + a1 + a2 + a3 + a4 + a5). assert (HK : 1 <= K) by (unfold K; lra).
  exists C, (/ K). split; [apply Rinv_0_lt_compat; lra|]. intros h delta tol iters init g0 [Hh HhK] [Hd HdK] Htol HtK Hit Hinit Hg0.
  assert (Ih : h * K <= 1) by (apply (Rmult_le_compat_r K) in HhK; [|lra]; rewrite Rinv_l in HhK by lra; exact HhK).
  assert (Id : delta * K <= 1) by (apply (Rmult_le_compat_r K) in HdK; [|lra]; rewrite Rinv_l in HdK by lra; exact HdK).
  assert (It : tol / h * K <= 1) by (apply (Rmult_le_compat_r K) in HtK; [|lra]; rewrite Rinv_l in HtK by lra; exact HtK).
  assert (Ii : h * K <= tol * 2 ^ iters).
  { apply (Rmult_le_compat_r K) in Hit; [|lra]. replace (/ K * (tol * 2 ^ iters) * K) with (tol * 2 ^ iters) in Hit by (field; lra). exact Hit. }
  assert (Pth : 0 < tol / h) by (apply Rdiv_lt_0_compat; lra).
  assert (Part : forall u a, 0 <= u -> u * K <= 1 -> 0 <= a <= K -> u * a <= 1) by (intros u a Hu Hu1 Ha; nra).
  assert (Hhs1 : h <= hs).
  { pose proof (Part h a1 ltac:(lra) Ih ltac:(unfold K; lra)) as Q. unfold a1 in Q. apply (Rmult_le_compat_r hs) in Q; [|lra]. replace (h * / hs * hs) with h in Q by (field; lra). lra. }
  assert (HhL : h * L * (1 + INR m) <= 1 / 4) by (pose proof (Part h a2 ltac:(lra) Ih ltac:(unfold K; lra)) as Q; unfold a2 in Q; lra).
  assert (HhA : 5 * h * A <= rho / 4).
  { pose proof (Part h a3 ltac:(lra) Ih ltac:(unfold K; lra)) as Q. unfold a3 in Q. apply (Rmult_le_compat_r rho) in Q; [|lra]. replace (h * (20 * A / rho) * rho) with (20 * h * A) in Q by (field; lra). lra. }
  assert (HCs : forall u, 0 <= u -> u * K <= 1 -> C * u <= rho / 12).
  { intros u Hu Hu1. pose proof (Part u a5 Hu Hu1 ltac:(unfold K; lra)) as Q. unfold a5 in Q. apply (Rmult_le_compat_r rho) in Q; [|lra]. replace (u * (12 * C / rho) * rho) with (12 * (C * u)) in Q by (field; lra). lra. }
  assert (Tube : C * (delta + h + tol / h) <= rho / 4).
  { pose proof (HCs h ltac:(lra) Ih). pose proof (HCs delta ltac:(lra) Id). pose proof (HCs (tol / h) ltac:(lra) It). lra. }
  assert (Hh1 : h <= 1) by nra.
  destruct iters as [|k].
  { exfalso. cbn [pow] in Ii. rewrite Rmult_1_r in Ii. assert (tol <= h / K).
    { apply (Rmult_le_compat_r h) in It; [|lra]. replace (tol / h * K * h) with (tol * K) in It by (field; lra). apply (Rmult_le_reg_r K); [lra|]. replace (h / K * K) with h by (field; lra). lra. }
    assert (h / K < h * K \/ K = 1) as [Q|Q]; [|lra|].
    - destruct (Req_dec K 1) as [|N]; [right; assumption|left]. apply (Rmult_lt_reg_r K); [lra|]. replace (h / K * K) with h by (field; lra). assert (1 < K) by lra. assert (1 < K * K) by nra. nra.
    - unfold K in Q. lra. }
  assert (HkA : 2 * INR m * (h * A) < tol * 2 ^ k).
  { cbn [pow] in Ii. assert (h * (a4 + 1) <= h * K) by (apply Rmult_le_compat_l; [lra|unfold K; lra]). unfold a4 in *. lra. }
  set (bd := fun i : nat => exp (2 * L * (grid t0 t1 h i - t0)) * (delta + 2 * M * h * (grid t0 t1 h i - t0) + 2 * tol * INR i)).
  assert (Gin : forall i, t0 <= grid t0 t1 h i <= t1) by (intros i; apply grid_in; auto).
  assert (bd0 : forall i, 0 <= bd i).
  { intros i. unfold bd. apply Rmult_le_pos; [left; apply exp_pos|]. pose proof (Gin i). pose proof (pos_INR i). assert (0 <= M * h) by nra. assert (0 <= 2 * M * h * (grid t0 t1 h i - t0)) by (apply Rmult_le_pos; lra). assert (0 <= 2 * tol * INR i) by (apply Rmult_le_pos; lra). lra. }
  assert (bdC : forall N i, INR N - 1 < (t1 - t0) / h -> (i <= N)%nat -> bd i <= C * (delta + h + tol / h)).
  { intros N i HN Hi. unfold bd, C. rewrite (Rmult_assoc (exp (2 * L * T))). pose proof (Gin i) as G. pose proof (pos_INR i) as Pi. assert (HiN : INR i <= INR N) by now apply le_INR.
    assert (X0 : 0 <= M * h) by nra. apply Rmult_le_compat; [left; apply exp_pos| | |].
    - assert (0 <= 2 * M * h * (grid t0 t1 h i - t0)) by (apply Rmult_le_pos; lra). assert (0 <= 2 * tol * INR i) by (apply Rmult_le_pos; lra). lra.
    - assert (Q : 2 * L * (grid t0 t1 h i - t0) <= 2 * L * T) by (apply Rmult_le_compat_l; unfold T; lra). destruct (Rle_lt_or_eq_dec _ _ Q) as [Q'|Q']; [left; now apply exp_increasing|rewrite Q'; lra].
    - assert (X1 : 2 * M * h * (grid t0 t1 h i - t0) <= 2 * (M * T) * h).
      { replace (2 * (M * T) * h) with (2 * M * h * T) by ring. apply Rmult_le_compat_l; [lra|unfold T; lra]. }
      assert (X2 : tol * INR i <= (T + 1) * (tol / h)).
      { apply Rle_trans with (tol * ((t1 - t0) / h + 1)); [apply Rmult_le_compat_l; lra|]. fold T.
        replace ((T + 1) * (tol / h)) with (tol * (T / h + / h)) by (field; lra). apply Rmult_le_compat_l; [lra|]. apply Rplus_le_compat_l.
        rewrite <- Rinv_1 at 1. apply Rinv_le_contravar; lra. }
      assert (0 <= M * T * delta) by nra. assert (0 <= M * T * (tol / h)) by nra. assert (0 <= T * delta) by nra. assert (0 <= T * h) by nra. assert (0 <= T * (tol / h)) by nra. lra. }
  destruct (fixed_solve_grid h (ie_step (S k) tol f jac) t0 t1 init (fun i x => exists g, is_col x m g /\ within m (fun l => g l - Y 0%nat l (grid t0 t1 h i)) (bd i)) Hh Ht) as (N & tv & xv & HN & ES & L1 & L2 & Hg & HI).
  - exists g0. split; [exact Hinit|]. unfold bd. rewrite grid_0 by auto. replace (t0 - t0) with 0 by ring. rewrite !Rmult_0_r, exp_0. cbn [INR]. intros l Hl. specialize (Hg0 l Hl). cbv beta in *. lra.
  - intros N i x HN Hi (g & Hx & Hw). set (ti := grid t0 t1 h i) in *. set (tn := grid t0 t1 h (S i)) in *. set (w := tn - ti).
    pose proof (Gin i) as Gi. pose proof (Gin (S i)) as Gn. fold ti in Gi. fold tn in Gn.
    assert (Wr : 0 <= w <= h) by (unfold w, tn, ti; apply grid_h_range; auto).
    pose proof (bdC N i (proj1 HN) Hi) as HbC. pose proof (bd0 i) as Hb0.
    assert (WL : w * L * (1 + INR m) <= 1 / 4).
    { apply Rle_trans with (h * L * (1 + INR m)); [|exact HhL]. apply Rmult_le_compat_r; [lra|]. apply Rmult_le_compat_r; lra. }
    assert (WA : w * A <= h * A) by (apply Rmult_le_compat_r; lra).
    destruct (step_error k ti w x g (bd i) tol ltac:(lra) ltac:(lra) ltac:(unfold w; lra) WL Hx Htol Hb0 Hw) as (s & gs & E & Hs & Hgs).
    { fold A. replace (5 * w * A) with (5 * (w * A)) by ring. lra. }
    { fold A. assert (2 * INR m * (w * A) <= 2 * INR m * (h * A)) by (apply Rmult_le_compat_l; lra). lra. }
    exists s. split; [exact E|]. exists gs. split; [exact Hs|]. intros l Hl. specialize (Hgs l Hl). cbv beta in *. replace (ti + w) with tn in Hgs by (unfold w; ring).
    eapply Rle_trans; [exact Hgs|]. unfold bd. fold ti tn. rewrite S_INR.
    replace (2 * L * (tn - t0)) with (2 * L * w + 2 * L * (ti - t0)) by (unfold w; ring). rewrite exp_plus, (Rmult_assoc (exp (2 * L * w))). apply Rmult_le_compat_l; [left; apply exp_pos|].
    set (E0 := exp (2 * L * (ti - t0))). assert (HE0 : 1 <= E0).
    { unfold E0. rewrite <- exp_0. destruct (Rle_lt_or_eq_dec 0 (2 * L * (ti - t0))) as [Q|Q]; [apply Rmult_le_pos; lra|left; now apply exp_increasing|rewrite <- Q; lra]. }
    replace (tn - t0) with ((ti - t0) + w) by (unfold w; ring).
    assert (X1 : M * w ^ 2 <= M * h * w) by (rewrite Rmult_assoc; apply Rmult_le_compat_l; [lra|]; cbn [pow]; nra).
    assert (X2 : 0 <= M * h * w) by (apply Rmult_le_pos; [nra|lra]). assert (X3 : M * h * w <= E0 * (M * h * w)) by nra. assert (X4 : tol <= E0 * tol) by nra. lra.
  - exists N, tv, xv. do 5 (split; [assumption|]). intros i Hi. destruct (HI i Hi) as (g & Hx & Hw). exists g. split; [exact Hx|]. rewrite Hg by exact Hi.
    intros l Hl. eapply Rle_trans; [exact (Hw l Hl)|]. apply (bdC N i); [apply HN|exact Hi].
Qed.
End Impl.

(** ** Scalar equations: the 1 x 1 systems are solvable *)
Lemma scalar_solvable f jac F JF t0 t1 Y rho L M : (forall t, computes (f t) 1 1 (F t)) -> (forall t, computes_mat (jac t) 1 1 1 (JF t)) ->
  0 < rho -> 0 <= L -> 0 <= M -> t0 <= t1 -> lipschitz_near 1 F t0 t1 (Y 0%nat) rho L -> jacobian_bounded 1 JF t0 t1 (Y 0%nat) rho L ->
  (forall i t, (i < 1)%nat -> t0 <= t <= t1 -> Y 1%nat i t = F t (fun l => Y 0%nat l t) i) ->
  (forall k i t, (k < 2)%nat -> (i < 1)%nat -> t0 <= t <= t1 -> is_derive (Y k i) t (Y (S k) i t)) ->
  (forall k i t, (k <= 2)%nat -> (i < 1)%nat -> t0 <= t <= t1 -> Rabs (Y k i t) <= M) ->
  implicit_euler_accurate f jac 1 t0 t1 (Y 0%nat).
Proof.
  intros Hf Hj Hr HL0 HM0 Ht HL HJ HF HD HB.
  apply (accurate f jac 1 F JF t0 t1 Y rho L M (/ (2 * (L + 1))) Hf Hj Hr HL0 HM0 ltac:(apply Rinv_0_lt_compat; lra) Ht HL HJ); auto.
  intros t w z g A Htt Hw Hz Hg EA. destruct (ie_jac_computes jac 1 JF Hj t w z g Hz) as (A' & EA' & HA). rewrite EA in EA'. injection EA' as <-.
  assert (Hnz : JF t g 0%nat 0%nat * w - 1 <> 0).
  { pose proof (HJ t g 0%nat 0%nat Htt Hg ltac:(lia) ltac:(lia)) as Q. apply Rabs_le_between in Q.
    assert (w * (2 * (L + 1)) <= 1) by (destruct Hw as [_ Hw]; apply (Rmult_le_compat_r (2 * (L + 1))) in Hw; [|lra]; rewrite Rinv_l in Hw by lra; exact Hw). nra. }
  assert (HA' : is_mat A 1 1 (fun _ _ => JF t g 0%nat 0%nat * w - 1)).
  { revert HA. apply is_mat_ext. intros i j H1 H2. replace i with 0%nat by lia. replace j with 0%nat by lia. reflexivity. }
  intros b gb Hb. destruct (solver_ok_1 A _ HA' Hnz b gb Hb) as (v & y & Ew & Hv & H1 & H2). exists v, y. split; [exact Ew|]. split; [exact Hv|].
  split; [intros i H; specialize (H1 i H); rewrite mv_1 in *; replace i with 0%nat in * by lia; exact H1|].
  intros y' H i H'. apply H2; [|exact H']. intros k Hk. specialize (H k Hk). rewrite mv_1 in *; replace k with 0%nat in * by lia; exact H.
Qed.

(** ** Small steps do not move *)
Lemma scalar_stall f jac lam : (forall t, computes (f t) 1 1 (fun z _ => lam * z 0%nat)) -> (forall t, computes_mat (jac t) 1 1 1 (fun _ _ _ => lam)) -> lam <= 0 ->
  forall iters tol t x a h, is_col x 1 (fun _ => a) -> 0 <= h -> h * Rabs (lam * a) < tol -> ie_step (S iters) tol f jac t x h = Ret x.
Proof.
  intros Hf Hj Hl iters tol t x a h Hx Hh Hs. unfold ie_step. cbv zeta. cbn [add R_ops].
  destruct (find_root_step _ _ 1 _ _ (ie_eval_computes f 1 _ Hf (t + h) x _ h Hx) (ie_jac_computes jac 1 _ Hj (t + h) h) iters tol x _ Hx) as (B & x' & _ & HB & E).
  - intros A EA. destruct (ie_jac_computes jac 1 _ Hj (t + h) h x _ Hx) as (A' & EA' & HA). rewrite EA in EA'. injection EA' as <-.
    assert (HA' : is_mat A 1 1 (fun _ _ => lam * h - 1)).
    { revert HA. apply is_mat_ext. intros i j H1 H2. replace i with 0%nat by lia. replace j with 0%nat by lia. reflexivity. }
    intros b gb Hb. destruct (solver_ok_1 A _ HA' ltac:(nra) b gb Hb) as (v & y & Ew & Hv & H1 & H2). exists v, y. split; [exact Ew|]. split; [exact Hv|].
    split; [intros i H; specialize (H1 i H); rewrite mv_1 in *; replace i with 0%nat in * by lia; exact H1|].
    intros y' H i H'. apply H2; [|exact H']. intros k Hk. specialize (H k Hk). rewrite mv_1 in *; replace k with 0%nat in * by lia; exact H.
  - rewrite E. specialize (HB 0%nat ltac:(lia)). rewrite mv_1 in HB. cbn [delta one Nat.eqb R_ops] in HB. unfold delta in HB. cbn in HB.
    assert (EB : B 0%nat * (lam * h - 1) = lam * a * h) by lra. rewrite enorm_1.
    assert (Rabs (B 0%nat) < tol).
    { assert (1 <= Rabs (lam * h - 1)) by (rewrite Rabs_left1; nra). pose proof (f_equal Rabs EB) as Q. rewrite !Rabs_mult, (Rabs_pos_eq h) in Q by lra. rewrite Rabs_mult in Hs. pose proof (Rabs_pos (B 0%nat)). nra. }
    replace (R_ltb (Rabs (B 0%nat)) tol) with true by (symmetry; now apply R_ltb_true). reflexivity.
Qed.

(** ** Linear systems whose first column has no positive entry and a zero below the diagonal *)
Lemma solve_first_one (A : matrix R) n f : is_mat A n n f -> (2 <= n)%nat -> f 0%nat 0%nat < 0 -> (forall r, (1 <= r < n)%nat -> f r 0%nat <= 0) ->
  (exists r, (1 <= r < n)%nat /\ f r 0%nat = 0) -> forall b g, is_col b n g ->
  exists w x, solve_vec A b = Ret (Ok w) /\ is_col w n x /\ x 0%nat = 1.
Proof.
  intros HA Hn H0 Hneg (r0 & Hr0 & Er0) b g Hb.
  destruct (dec_lu_gen (fun i a s => match i with 0%nat => forall r, (r < n)%nat -> a r 0%nat = f r 0%nat | _ => a 0%nat 0%nat = 0 end) A n f HA) as (Lm & U & P & a & s & E & HLm & HU & HP & _ & HI).
  - intros r _. reflexivity.
  - intros i a s k Hk Ek _ HI. unfold elimf. cbn [Nat.leb]. destruct i as [|i].
    + unfold swapf. cbn [Nat.eqb]. rewrite HI by lia.
      assert (Q : ltb (a k 0%nat) (a r0 0%nat) = false) by (rewrite Ek; apply (pick_max R_OrdLaws (fun r => a r 0%nat)); lia).
      cbn [ltb R_ops] in Q. apply R_ltb_false in Q. rewrite !HI in Q by lia. rewrite Er0 in Q.
      destruct (Nat.eq_dec k 0) as [->|]; [lra|]. pose proof (Hneg k ltac:(lia)). lra.
    + unfold swapf. cbn [Nat.eqb]. destruct k; [lia|exact HI].
  - unfold solve_vec. rewrite E. cbn [bind runwrap lu_p lu_l lu_u].
    destruct (mmul_vec_spec P n n _ b g HP Hb) as (bh & -> & Hbh). cbn [bind].
    destruct (subst_forward_vec_spec Lm n _ bh _ HLm Hbh) as (y & gy & -> & Hy & _). cbn [bind].
    destruct (subst_backward_vec_spec U n _ y gy HU Hy) as (w & x & -> & Hw & Hx). cbn [bind]. exists w, x. split; [reflexivity|]. split; [exact Hw|].
    rewrite (Hx 0%nat ltac:(lia)). unfold upart. cbn [Nat.leb]. destruct n as [|n']; [lia|]. rewrite HI. cbn [eqb R_ops zero one].
    destruct (R_eqb 0 0) eqn:Ez; [reflexivity|]. apply R_eqb_false in Ez. lra.
Qed.
Lemma find_root_fails func jac n F J : computes func n n F -> computes_mat jac n n n J -> (2 <= n)%nat ->
  (forall z, J z 0%nat 0%nat < 0) -> (forall z r, (1 <= r < n)%nat -> J z r 0%nat <= 0) -> (exists r, (1 <= r < n)%nat /\ forall z, J z r 0%nat = 0) ->
  forall tol, tol <= 1 -> forall iters x g, is_col x n g -> find_root iters tol func jac x = Ret Err.
Proof.
  intros HF HJ Hn H0 Hneg (r0 & Hr0 & Er0) tol Htol. induction iters as [|iters IH]; intros x g Hx; [reflexivity|]. cbn [find_root].
  destruct (HF x g Hx) as (fx & E1 & Hfx). rewrite E1. cbn [bind].
  destruct (HJ x g Hx) as (A & E2 & HA). rewrite E2. cbn [bind].
  destruct (solve_first_one A n (J g) HA Hn (H0 g) (Hneg g) (ex_intro _ r0 (conj Hr0 (Er0 g))) fx _ Hfx) as (b & B & E3 & Hb & HB). rewrite E3. cbn [bind runwrap].
  destruct (vsub_col x b n g B Hx Hb) as (x' & E4 & Hx'). rewrite E4. cbn [bind].
  destruct (vsub_col x x' n _ _ Hx Hx') as (d & E5 & Hd). rewrite E5. cbn [bind].
  change (@two R R_pops) with 2. rewrite (vp_norm_2 d n _ (or_introl Hd)). cbn [bind].
  rewrite (enorm_ext n _ B) by (intros i Hi; cbn [sub R_ops]; lra).
  assert (1 <= enorm n B) by (pose proof (within_enorm n B 0 ltac:(lia)) as Q; rewrite HB, Rabs_R1 in Q; exact Q).
  change (ltb (enorm n B) tol) with (R_ltb (enorm n B) tol). replace (R_ltb (enorm n B) tol) with false by (symmetry; apply R_ltb_false; lra). exact (IH x' _ Hx').
Qed.
Lemma ie_step_fails f jac n F J t h : (forall t, computes (f t) n n (F t)) -> (forall t, computes_mat (jac t) n n n (J t)) -> (2 <= n)%nat ->
  (forall z, J (t + h) z 0%nat 0%nat * h < 1) -> (forall z r, (1 <= r < n)%nat -> J (t + h) z r 0%nat * h <= 0) ->
  (exists r, (1 <= r < n)%nat /\ forall z, J (t + h) z r 0%nat * h = 0) ->
  forall iters tol x g, tol <= 1 -> is_col x n g -> ie_step iters tol f jac t x h = Panic.
Proof.
  intros Hf Hj Hn H0 Hneg (r0 & Hr0 & Er0) iters tol x g Htol Hx. unfold ie_step. cbv zeta. cbn [add R_ops].
  assert (D : forall r, (1 <= r)%nat -> delta (T:=R) r 0 = 0) by (intros [|r] Hr; [lia|reflexivity]).
  rewrite (find_root_fails _ _ n _ _ (ie_eval_computes f n F Hf (t + h) x g h Hx) (ie_jac_computes jac n J Hj (t + h) h)) with (g := g); auto.
  - intros z. specialize (H0 z). unfold delta. cbn. lra.
  - intros z r Hr. specialize (Hneg z r Hr). rewrite D by lia. lra.
  - exists r0. split; [exact Hr0|]. intros z. rewrite D by lia. rewrite Er0. lra.
Qed.
Lemma solve_vec_col (A : matrix R) n f b g : is_mat A n n f -> is_col b n g -> exists w x, solve_vec A b = Ret (Ok w) /\ is_col w n x.
Proof.
  intros HA Hb. destruct (dec_lu_gen (fun _ _ _ => True) A n f HA) as (Lm & U & P & a & s & E & HLm & HU & HP & _); [exact I|auto|].
  unfold solve_vec. rewrite E. cbn [bind runwrap lu_p lu_l lu_u].
  destruct (mmul_vec_spec P n n _ b g HP Hb) as (bh & -> & Hbh). cbn [bind].
  destruct (subst_forward_vec_spec Lm n _ bh _ HLm Hbh) as (y & gy & -> & Hy & _). cbn [bind].
  destruct (subst_backward_vec_spec U n _ y gy HU Hy) as (w & x & -> & Hw & Hx). cbn [bind]. exists w, x. now split.
Qed.
Lemma find_root_col func jac n F J : computes func n n F -> computes_mat jac n n n J ->
  forall tol iters x g r, is_col x n g -> find_root iters tol func jac x = Ret (Ok r) -> exists g', is_col r n g'.
Proof.
  intros HF HJ tol. induction iters as [|iters IH]; intros x g r Hx; [discriminate|]. cbn [find_root].
  destruct (HF x g Hx) as (fx & E1 & Hfx). rewrite E1. cbn [bind].
  destruct (HJ x g Hx) as (A & E2 & HA). rewrite E2. cbn [bind].
  destruct (solve_vec_col A n (J g) fx _ HA Hfx) as (b & B & E3 & Hb). rewrite E3. cbn [bind runwrap].
  destruct (vsub_col x b n g B Hx Hb) as (x' & E4 & Hx'). rewrite E4. cbn [bind].
  destruct (vsub_col x x' n _ _ Hx Hx') as (d & E5 & Hd). rewrite E5. cbn [bind].
  change (@two R R_pops) with 2. rewrite (vp_norm_2 d n _ (or_introl Hd)). cbn [bind].
  destruct (ltb _ tol); [intros [= <-]; now exists g|]. exact (IH x' _ r Hx').
Qed.
(** The last, discarded step of a run has size zero; its matrix is -I. *)
Lemma ie_run_fails f jac n F J : (forall t, computes (f t) n n (F t)) -> (forall t, computes_mat (jac t) n n n (J t)) -> (2 <= n)%nat ->
  forall iters tol h t0 t1 init g, tol <= 1 -> 0 < h -> t0 <= t1 -> is_col init n g -> fixed_solve h (ie_step iters tol f jac) t0 t1 init = Panic.
Proof.
  intros Hf Hj Hn iters tol h t0 t1 init g Htol Hh Ht Hinit. unfold fixed_solve. cbn [ltb R_ops].
  replace (R_ltb t1 t0) with false by (symmetry; apply R_ltb_false; exact Ht).
  assert (Hy : 0 <= (t1 - t0) / h) by (apply Rmult_le_pos; [lra|left; apply Rinv_0_lt_compat; exact Hh]).
  destruct (steps_spec ((t1 - t0) / h) Hy) as (N & HN & HNb).
  cbv zeta. cbn [sub div R_ops]. rewrite HN.
  match goal with |- bind (for_loop 0 _ ?b ?s) _ = _ => set (body := b); destruct (for_loop 0 (S N) body s) as [st|] eqn:EL; [exfalso|reflexivity] end.
  apply (for_loop_inv (fun i (st : list R * list (vector R) * R * vector R) =>
     let '(tv, xv, tn, xn) := st in (i <= N)%nat /\ tn = grid t0 t1 h i /\ exists gx, is_col xn n gx)) in EL.
  - destruct st as [[[tv xv] tn] xn]. destruct EL as [Q _]. lia.
  - lia.
  - split; [lia|]. split; [symmetry; now apply grid_0|]. now exists g.
  - intros i [[[tv xv] tn] xn] st' Hi (_ & -> & gx & Hx). unfold body. rewrite tmin_R. cbn [sub add R_ops]. rewrite (grid_h t0 t1 h Hh i).
    destruct (Nat.eq_dec i N) as [->|].
    + rewrite (grid_N t0 t1 h Hh N HNb N), (grid_N t0 t1 h Hh N HNb (S N)) by lia. replace (t1 - t1) with 0 by ring.
      rewrite (ie_step_fails f jac n F J t1 0 Hf Hj Hn) with (g := gx); [discriminate| | | |exact Htol|exact Hx].
      * intros z. lra.
      * intros z r _. lra.
      * exists 1%nat. split; [lia|]. intros z. lra.
    + destruct (ie_step iters tol f jac _ xn _) as [r|] eqn:E; [|discriminate]. cbn [bind]. intros [= <-].
      split; [lia|]. split; [ring|]. unfold ie_step in E. cbv zeta in E.
      destruct (find_root _ _ _ _ _) as [[r'|]|] eqn:EF; cbn in E; try discriminate. injection E as <-.
      exact (find_root_col _ _ n _ _ (ie_eval_computes f n F Hf _ xn gx _ Hx) (ie_jac_computes jac n J Hj _ _) tol iters xn gx r' Hx EF).
Qed.

(** ** Small facts for the examples *)
Lemma one_mat (a : R) : is_mat (mkMatrix 1 1 [a]) 1 1 (fun _ _ => a).
Proof. apply is_mat_intro; [reflexivity|reflexivity|reflexivity|]. intros i j Hi Hj. replace i with 0%nat by lia. replace j with 0%nat by lia. reflexivity. Qed.
Lemma diag_2 : is_mat (mkMatrix 2 2 [-1; 0; 0; -1]) 2 2 (fun i j => - delta i j).
Proof.
  apply is_mat_intro; [reflexivity|reflexivity|reflexivity|].
  intros [|[|i]] [|[|j]] Hi Hj; try lia; cbn; unfold delta; cbn; f_equal; lra.
Qed.
Lemma exp_m1_half : exp (-1) < 1 / 2.
Proof.
  assert (2 < exp 1) by (pose proof (exp_ineq1 1 ltac:(lra)); lra).
  replace (-1) with (Ropp 1) by ring. rewrite exp_Ropp. replace (1 / 2) with (/ 2) by lra. apply Rinv_lt_contravar; lra.
Qed.

(** ** Binary64: x' = y, y' = x *)
(** Powers with correctly rounded squares and square roots, the only ones the norm needs. *)
Definition f64_pow (x y : f64) : f64 :=
  if eqb y (@two f64 (F64_pops (fun _ _ => zero))) then mul x x else if eqb y (@half f64 (F64_pops (fun _ _ => zero))) then SFsqrt 53 1024 x else S754_nan.
Definition f64_swap_rhs (_ : f64) (x : vector f64) : outcome (vector f64) := let! a := vvget x 0 in let! b := vvget x 1 in Ret (mkMatrix 2 1 [b; a]).
Definition f64_swap_jac (_ : f64) (_ : vector f64) : outcome (matrix f64) := Ret (mkMatrix 2 2 [zero; one; one; zero]).
Definition f64_swap_step (t : f64) (x : vector f64) (h : f64) := @ie_step f64 F64_ops (F64_pops f64_pow) ie_iters ie_tol f64_swap_rhs f64_swap_jac t x h.
Lemma f64_swap_runs : f64_swap_step zero (mkMatrix 2 1 [one; one]) (lit 1 2) = Ret (mkMatrix 2 1 [of_Z 2; of_Z 2]) /\
  f64_swap_step (lit 1 2) (mkMatrix 2 1 [of_Z 2; of_Z 2]) (lit 1 2) = Ret (mkMatrix 2 1 [of_Z 4; of_Z 4]) /\
  fixed_solve (lit 1 2) f64_swap_step zero one (mkMatrix 2 1 [one; one]) = Panic.
Proof. split; [|split]; vm_compute; reflexivity. Qed.
