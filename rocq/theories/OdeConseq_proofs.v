(** What the order conditions mean for a step: exact quadrature and the Taylor polynomial of the
    exponential for linear systems. *)
From Coq Require Import Arith Lia List Bool ZArith Reals Lra.
From Verif Require Import Outcome Scalar Matrix_model Vector_model Matrix_spec Matrix_proofs Vector_proofs Sums Ode_model Ode_spec Ode_proofs.
Import ListNotations.
Local Open Scope R_scope.

Lemma sumR_ext n (f g : nat -> R) : (forall i, (i < n)%nat -> f i = g i) -> sumn n f = sumn n g.
Proof. apply sumn_ext. Qed.
Lemma sumR_S n (f : nat -> R) : sumn (S n) f = sumn n f + f n. Proof. reflexivity. Qed.
Lemma sumR_first n (f : nat -> R) : sumn (S n) f = f 0%nat + sumn n (fun i => f (S i)).
Proof. exact (sumn_first R_RingLaws n f). Qed.
Lemma sumR_add n (f g : nat -> R) : sumn n (fun i => f i + g i) = sumn n f + sumn n g.
Proof. exact (sumn_add R_RingLaws n f g). Qed.
Lemma sumR_mul_l n c (f : nat -> R) : sumn n (fun i => c * f i) = c * sumn n f.
Proof. exact (sumn_mul_l R_RingLaws n c f). Qed.
Lemma sumR_mul_r n c (f : nat -> R) : sumn n (fun i => f i * c) = sumn n f * c.
Proof. exact (sumn_mul_r R_RingLaws n c f). Qed.
Lemma sumR_swap m n (f : nat -> nat -> R) :
  sumn m (fun i => sumn n (fun j => f i j)) = sumn n (fun j => sumn m (fun i => f i j)).
Proof. exact (sumn_swap R_RingLaws m n f). Qed.
Lemma sumR_zero n : sumn n (fun _ => 0) = 0. Proof. exact (sumn_zero R_RingLaws n). Qed.
Lemma sumR_trunc k n (f : nat -> R) : (k <= n)%nat -> (forall i, (k <= i < n)%nat -> f i = 0) -> sumn n f = sumn k f.
Proof. exact (sumn_trunc R_RingLaws k n f). Qed.

(** ** Bushy trees: quadrature conditions *)
Definition bushy (k : nat) : tree := Node (repeat (Node []) k).
Lemma bushy_order k : torder (bushy k) = S k.
Proof. unfold bushy. cbn [torder]. f_equal. induction k; simpl in *; lia. Qed.
Lemma bushy_gamma k : tgamma (bushy k) = S k.
Proof.
  unfold bushy. cbn [tgamma]. fold (bushy k). rewrite bushy_order.
  replace (fold_right (fun t n => (tgamma t * n)%nat) 1%nat (repeat (Node []) k)) with 1%nat; [lia|].
  induction k; simpl in *; lia.
Qed.
Lemma bushy_phi (a : nat -> nat -> R) k j : tphi a (bushy k) j = (sumn j (fun l => a j l)) ^ k.
Proof.
  unfold bushy. cbn [tphi]. induction k as [|k IH]; [reflexivity|]. cbn [repeat fold_right pow].
  rewrite IH. cbn [mul R_ops]. f_equal. apply sumR_ext. intros l Hl. cbn [tphi fold_right one mul R_ops]. ring.
Qed.
Lemma quad_cond a b c p k : row_sums a b c -> has_order a b c p -> (k < p)%nat ->
  sumn (length b) (fun j => b_of b j * c_of c j ^ k) = 1 / INR (S k).
Proof.
  intros Hr Ho Hk. specialize (Ho (bushy k)). rewrite bushy_order, bushy_gamma in Ho.
  rewrite <- Ho by lia. apply sumR_ext. intros j Hj. rewrite bushy_phi, (Hr j Hj). reflexivity.
Qed.

(** Polynomials can be recentred. *)
Lemma recentre t : forall n (q : nat -> R), exists q', forall u,
  sumn n (fun k => q k * u ^ k) = sumn n (fun k => q' k * (u - t) ^ k).
Proof.
  induction n as [|n IH]; intros q; [exists q; reflexivity|].
  destruct (IH (fun k => q (S k))) as (q' & Hq').
  exists (fun k => (match k with O => q 0%nat | S k => q' k end) + (if (k <? n)%nat then t * q' k else 0)).
  intros u. rewrite sumR_first.
  rewrite (sumR_ext _ _ (fun k => u * (q (S k) * u ^ k))) by (intros; simpl; ring).
  rewrite sumR_mul_l, Hq'.
  rewrite (sumR_ext _ (fun k => (_ + (if (k <? n)%nat then t * q' k else 0)) * _)
     (fun k => (match k with O => q 0%nat | S k => q' k end) * (u - t) ^ k + (if (k <? n)%nat then t * q' k else 0) * (u - t) ^ k))
    by (intros; ring).
  rewrite sumR_add, sumR_first.
  rewrite (sumR_ext n (fun i => q' i * (u - t) ^ S i) (fun i => (u - t) * (q' i * (u - t) ^ i))) by (intros; simpl; ring).
  rewrite sumR_mul_l.
  rewrite (sumR_S n (fun k => (if (k <? n)%nat then t * q' k else 0) * (u - t) ^ k)), Nat.ltb_irrefl.
  rewrite (sumR_ext n (fun k => (if (k <? n)%nat then t * q' k else 0) * (u - t) ^ k) (fun k => t * (q' k * (u - t) ^ k))).
  - rewrite sumR_mul_l. simpl. ring.
  - intros k Hk. apply Nat.ltb_lt in Hk. rewrite Hk. ring.
Qed.

(** The antiderivative of a centred polynomial. *)
Lemma antideriv_sum n (q : nat -> R) t u :
  derivable_pt_lim (fun v => sumn n (fun k => q k * (v - t) ^ S k / INR (S k))) u (sumn n (fun k => q k * (u - t) ^ k)).
Proof.
  induction n as [|n IH]; [apply derivable_pt_lim_const|]. cbn [sumn add R_ops].
  apply (derivable_pt_lim_plus (fun v => sumn n _) (fun v => q n * (v - t) ^ S n / INR (S n))); [exact IH|].
  assert (H : derivable_pt_lim (fun v => (v - t) ^ S n) u (INR (S n) * (u - t) ^ n)).
  { replace (INR (S n) * (u - t) ^ n) with ((INR (S n) * (u - t) ^ pred (S n)) * (1 - 0)) by (simpl pred; ring).
    apply (derivable_pt_lim_comp (fun v => v - t) (fun w => w ^ S n)).
    - apply derivable_pt_lim_minus; [apply derivable_pt_lim_id|apply derivable_pt_lim_const].
    - apply derivable_pt_lim_pow. }
  replace (q n * (u - t) ^ n) with (q n / INR (S n) * (INR (S n) * (u - t) ^ n)).
  2:{ field. apply not_0_INR. lia. }
  pose proof (derivable_pt_lim_scal _ (q n / INR (S n)) _ _ H) as H'.
  intros eps He. destruct (H' eps He) as (d & Hd). exists d. intros w Hw Hwd. specialize (Hd w Hw Hwd).
  unfold mult_real_fct in Hd.
  replace ((q n * (u + w - t) ^ S n / INR (S n) - q n * (u - t) ^ S n / INR (S n)) / w)
    with ((q n / INR (S n) * (u + w - t) ^ S n - q n / INR (S n) * (u - t) ^ S n) / w) by (field; split; [apply not_0_INR; lia|exact Hw]).
  exact Hd.
Qed.

(** Two antiderivatives differ by a constant. *)
Lemma same_increment (F G : R -> R) (g : R -> R) a b :
  (forall u, derivable_pt_lim F u (g u)) -> (forall u, derivable_pt_lim G u (g u)) -> F b - F a = G b - G a.
Proof.
  intros HF HG.
  assert (HD : forall u, derivable_pt_lim (fun v => F v - G v) u 0).
  { intros u. replace 0 with (g u - g u) by ring. apply (derivable_pt_lim_minus F G); auto. }
  assert (pr : derivable (fun v => F v - G v)) by (intros u; exists 0; apply HD).
  assert (Hc : constant (fun v => F v - G v)).
  { apply (null_derivative_1 _ pr). intros u. apply derive_pt_eq_0. apply HD. }
  specialize (Hc a b). simpl in Hc. lra.
Qed.

Lemma quadrature_step (B : tableau R) p m (f : R -> vector R -> outcome (vector R)) (q : nat -> nat -> R) :
  (1 <= length (tb B))%nat -> tableau_ok (ta B) (tb B) (tc B) ->
  row_sums (ta B) (tb B) (tc B) -> has_order (ta B) (tb B) (tc B) p ->
  (forall u x, exists y, f u x = Ret y /\ is_col y m (fun i => sumn p (fun k => q i k * u ^ k))) ->
  forall t x g h, is_col x m g -> exists r, do_step B f t x h = Ret r /\
    forall F : nat -> R -> R, (forall i u, derivable_pt_lim (F i) u (sumn p (fun k => q i k * u ^ k))) ->
    is_col r m (fun i => g i + (F i (t + h) - F i t)).
Proof.
  intros Hs Hok Hrow Hord Hf t x g h Hx.
  assert (Htot : rhs_total f m).
  { intros u y k _. destruct (Hf u y) as (z & E & Hz). eauto. }
  destruct (do_step_spec B f m t x g h Hs Hok Hx Htot) as (r & K & E & HR & Hr).
  exists r. split; [exact E|]. intros F HF. eapply col_ext; [|exact Hr]. intros i Hi. cbn beta.
  cbn [add mul R_ops]. f_equal.
  destruct (recentre t p (q i)) as (q' & Hq').
  rewrite (same_increment (F i) (fun v => sumn p (fun k => q' k * (v - t) ^ S k / INR (S k)))
             (fun u => sumn p (fun k => q i k * u ^ k)) t (t + h)).
  2: apply HF.
  2:{ intros u. rewrite Hq'. apply antideriv_sum. }
  assert (HK : forall j, (j < length (tb B))%nat -> K j i = sumn p (fun k => q' k * (c_of (tc B) j * h) ^ k)).
  { intros j Hj. destruct HR as ((k0 & E0 & H0) & HR).
    destruct j as [|j].
    - destruct (Hf t x) as (y & Ey & Hy). assert (y = k0) by congruence. subst y.
      pose proof (is_mat_entry_unique _ _ _ _ _ i 0%nat H0 Hy Hi ltac:(lia)) as Hu. cbn beta in Hu. rewrite Hu, Hq'.
      apply sumR_ext. intros k Hk. cbn [c_of zero R_ops]. f_equal. f_equal. ring.
    - destruct (HR (S j) ltac:(lia)) as (xj & kj & _ & Ej & Hj').
      destruct (Hf (t + c_of (tc B) (S j) * h) xj) as (y & Ey & Hy).
      cbn [add mul R_ops] in Ej. assert (y = kj) by congruence. subst y.
      pose proof (is_mat_entry_unique _ _ _ _ _ i 0%nat Hj' Hy Hi ltac:(lia)) as Hu. cbn beta in Hu. rewrite Hu, Hq'.
      apply sumR_ext. intros k Hk. f_equal. f_equal. ring. }
  rewrite (sumR_ext _ _ (fun j => sumn p (fun k => q' k * h ^ k * (b_of (tb B) j * c_of (tc B) j ^ k)))).
  2:{ intros j Hj. rewrite HK by assumption. rewrite <- sumR_mul_r. apply sumR_ext. intros k Hk.
      rewrite Rpow_mult_distr. ring. }
  rewrite sumR_swap, <- sumR_mul_r.
  rewrite (sumR_ext p _ (fun k => q' k * (t + h - t) ^ S k / INR (S k))).
  - rewrite (sumR_ext p (fun k => q' k * (t - t) ^ S k / INR (S k)) (fun _ => 0)), sumR_zero; [ring|].
    intros k Hk. replace (t - t) with 0 by ring. rewrite pow_i by lia. unfold Rdiv. ring.
  - intros k Hk. rewrite sumR_mul_l, (quad_cond _ _ _ p k Hrow Hord Hk).
    replace (t + h - t) with h by ring. simpl pow. field. apply not_0_INR. lia.
Qed.

(** ** Tall trees: linear systems *)
Fixpoint tall (k : nat) : tree := match k with O => Node [] | S k => Node [tall k] end.
Lemma tall_order k : torder (tall k) = S k.
Proof. induction k as [|k IH]; [reflexivity|]. simpl in *. rewrite IH. lia. Qed.
Lemma tall_gamma k : tgamma (tall k) = fact (S k).
Proof.
  induction k as [|k IH]; [reflexivity|]. cbn [tall tgamma fold_right]. rewrite IH.
  change (torder (Node [tall k])) with (torder (tall (S k))). rewrite tall_order. rewrite (fact_simpl (S k)). lia.
Qed.
Lemma tall_phi_S (a : nat -> nat -> R) k j : tphi a (tall (S k)) j = sumn j (fun l => a j l * tphi a (tall k) l).
Proof. cbn [tall tphi fold_right mul one R_ops]. ring. Qed.
Lemma tall_phi_0 (a : nat -> nat -> R) j : tphi a (tall 0) j = 1. Proof. reflexivity. Qed.
Lemma tall_phi_vanish (a : nat -> nat -> R) k : forall j, (j < k)%nat -> tphi a (tall k) j = 0.
Proof.
  induction k as [|k IH]; intros j Hj; [lia|]. rewrite tall_phi_S. rewrite (sumR_ext _ _ (fun _ => 0)).
  - apply sumR_zero.
  - intros l Hl. rewrite IH by lia. ring.
Qed.

Lemma mat_iter_lin m (A : nat -> nat -> R) n (w : nat -> R) (G : nat -> nat -> R) i :
  sumn m (fun l => A i l * sumn n (fun k => w k * G k l)) = sumn n (fun k => w k * sumn m (fun l => A i l * G k l)).
Proof.
  rewrite (sumR_ext m _ (fun l => sumn n (fun k => w k * (A i l * G k l)))).
  - rewrite sumR_swap. apply sumR_ext. intros k Hk. apply sumR_mul_l.
  - intros l Hl. rewrite <- sumR_mul_l. apply sumR_ext. intros k Hk. ring.
Qed.

Lemma linear_step (B : tableau R) p m (Am : matrix R) A : 
  (1 <= length (tb B))%nat -> tableau_ok (ta B) (tb B) (tc B) ->
  has_order (ta B) (tb B) (tc B) p -> is_mat Am m m A ->
  exists w : nat -> R, (forall k, (k <= p)%nat -> w k = 1 / INR (fact k)) /\
  forall t x g h, is_col x m g -> exists r,
    do_step B (fun _ y => mmul_vec Am y) t x h = Ret r /\
    is_col r m (fun i => sumn (S (length (tb B))) (fun k => w k * h ^ k * mat_iter m A k g i)).
Proof.
  intros Hs Hok Hord HA. set (s := length (tb B)) in *.
  exists (fun k => match k with O => 1 | S k => sumn s (fun j => b_of (tb B) j * tphi (a_of (ta B)) (tall k) j) end).
  split.
  - intros [|k] Hk; [simpl; lra|]. specialize (Hord (tall k)). rewrite tall_order, tall_gamma in Hord. apply Hord. lia.
  - intros t x g h Hx.
    assert (Htot : rhs_total (fun (_ : R) y => mmul_vec Am y) m).
    { intros u y k Hy. destruct (mmul_vec_spec Am m m A y k HA Hy) as (z & E & Hz). eauto. }
    destruct (do_step_spec B _ m t x g h Hs Hok Hx Htot) as (r & K & E & HR & Hr). fold s in HR, Hr.
    exists r. split; [exact E|]. eapply col_ext; [|exact Hr]. intros i Hi. cbn beta. cbn [add mul R_ops].
    assert (HK : forall j, (j < s)%nat -> forall i, (i < m)%nat ->
      K j i = sumn s (fun k => tphi (a_of (ta B)) (tall k) j * h ^ k * mat_iter m A (S k) g i)).
    { destruct HR as ((k0 & E0 & H0) & HR). intros j. induction j as [j IH] using lt_wf_ind. intros Hj i' Hi'.
      destruct j as [|j].
      - destruct (mmul_vec_spec Am m m A x g HA Hx) as (y & Ey & Hy). assert (y = k0) by congruence. subst y.
        pose proof (is_mat_entry_unique _ _ _ _ _ i' 0%nat H0 Hy Hi' ltac:(lia)) as Hu. cbn beta in Hu. rewrite Hu.
        rewrite (sumR_trunc 1 s) by (try lia; intros k Hk; rewrite tall_phi_vanish by lia; ring).
        cbn [sumn add zero R_ops mat_iter pow]. rewrite tall_phi_0. cbn [mul R_ops]. ring.
      - destruct (HR (S j) ltac:(lia)) as (xj & kj & Hxj & Ej & Hj').
        destruct (mmul_vec_spec Am m m A xj _ HA Hxj) as (y & Ey & Hy). assert (y = kj) by congruence. subst y.
        pose proof (is_mat_entry_unique _ _ _ _ _ i' 0%nat Hj' Hy Hi' ltac:(lia)) as Hu. cbn beta in Hu. rewrite Hu.
        cbn [add mul R_ops].
        (* the argument of the stage as a combination of iterates *)
        rewrite (sumR_ext m _ (fun l => A i' l * sumn s (fun k => (match k with O => 1 | S k' => 
             sumn (S j) (fun l' => a_of (ta B) (S j) l' * tphi (a_of (ta B)) (tall k') l') * h ^ (S k') end) * mat_iter m A k g l))).
        + rewrite mat_iter_lin. apply sumR_ext. intros k Hk. cbn [mat_iter]. f_equal.
          destruct k as [|k]; [rewrite tall_phi_0; simpl; ring|]. rewrite tall_phi_S. ring.
        + intros l Hl. f_equal.
          rewrite (sumR_ext (S j) _ (fun l' => sumn s (fun k => a_of (ta B) (S j) l' * tphi (a_of (ta B)) (tall k) l' * h ^ k * mat_iter m A (S k) g l))).
          2:{ intros l' Hl'. rewrite IH by (assumption || lia). rewrite <- sumR_mul_r. apply sumR_ext. intros. ring. }
          rewrite sumR_swap, <- sumR_mul_r.
          destruct s as [|s']; [lia|]. rewrite (sumR_first s' (fun k => match k with O => 1 | S _ => _ end * _)).
          cbn [mat_iter]. rewrite Rmult_1_l. f_equal.
          rewrite sumR_S. rewrite (sumR_ext (S j) _ (fun _ => 0)), sumR_zero.
          2:{ intros l' Hl'. rewrite tall_phi_vanish by lia. ring. }
          rewrite Rmult_0_l, Rplus_0_r. apply sumR_ext. intros k Hk.
          rewrite (sumR_ext (S j) _ (fun i0 => (a_of (ta B) (S j) i0 * tphi (a_of (ta B)) (tall k) i0) * (h ^ k * mat_iter m A (S k) g l))) by (intros; cbn [mat_iter]; ring).
          rewrite sumR_mul_r. simpl pow.
          cbn [mat_iter]. ring. }
    rewrite sumR_first. cbn [mat_iter]. simpl pow. rewrite !Rmult_1_l. f_equal.
    rewrite (sumR_ext s (fun j => K j i * _) (fun j => sumn s (fun k => b_of (tb B) j * tphi (a_of (ta B)) (tall k) j * (h ^ k * mat_iter m A (S k) g i)))).
    2:{ intros j Hj. rewrite HK by assumption. rewrite <- sumR_mul_r. apply sumR_ext. intros. ring. }
    rewrite sumR_swap, <- sumR_mul_r. apply sumR_ext. intros k Hk.
    rewrite sumR_mul_r. cbn [mat_iter pow]. ring.
Qed.
