(** A problem that meets the hypotheses of the convergence theorem, and a method that does not converge. *)
From Coq Require Import Arith Lia List Bool Reals Lra Psatz.
From Coquelicot Require Import Coquelicot.
From Verif Require Import Outcome Scalar RealOps Matrix_model Vector_model Matrix_spec Optim_spec Matrix_proofs Vector_proofs Sums DecompProps_proofs
  Ode_model Ode_spec Ode_proofs OdeOrder_proofs OdeConseq_proofs OdeSolve_proofs OdeMulti_proofs BigO_proofs OdeConv_spec OdeConv_proofs OdeLocal_proofs OdeGlobal_proofs.
Import ListNotations.
Local Open Scope R_scope.

(** x' = x^2, x(0) = 1 on [0, 1/2]; x = 1/(1-t). *)
Definition sq_rhs (_ : R) (x : vector R) : outcome (vector R) := let! v := vvget x 0 in Ret (mkMatrix 1 1 [v * v]).
Definition sq_F (_ : R) (g : nat -> R) (_ : nat) : R := g 0%nat * g 0%nat.
Definition sq_Y (k _ : nat) (t : R) : R := INR (fact k) * (/ (1 - t)) ^ S k.
Definition sq_J (k _ _ : nat) (t : R) : R := 2 * INR (fact k) * (/ (1 - t)) ^ S k.

Lemma sq_computes t : computes (sq_rhs t) 1 1 (sq_F t).
Proof.
  intros x g Hx. unfold sq_rhs. rewrite (col_get x 1 g 0 Hx) by lia. cbn [bind]. eexists. split; [reflexivity|].
  eapply is_mat_ext; [|exact (is_col_list 0 1 [g 0%nat * g 0%nat] eq_refl)]. intros i j Hi Hj. replace i with 0%nat by lia. reflexivity.
Qed.
Lemma inv_pow_deriv C k t : t < 1 -> is_derive (fun t => C * (/ (1 - t)) ^ S k) t (C * INR (S k) * (/ (1 - t)) ^ S (S k)).
Proof.
  intros Ht. assert (D : is_derive (fun t => / (1 - t)) t ((/ (1 - t)) ^ 2)).
  { auto_derive; [lra|]. field. lra. }
  pose proof (is_derive_pow (fun t => / (1 - t)) (S k) t _ D) as D2.
  apply (is_derive_scal (fun t => (/ (1 - t)) ^ S k) t C) in D2. cbv beta in D2.
  replace (C * INR (S k) * (/ (1 - t)) ^ S (S k)) with (C * (INR (S k) * (/ (1 - t)) ^ 2 * (/ (1 - t)) ^ Init.Nat.pred (S k))); [exact D2|].
  change (Init.Nat.pred (S k)) with k. cbn [pow]. ring.
Qed.
Lemma inv_range t : 0 <= t <= 1 / 2 -> 1 <= / (1 - t) <= 2.
Proof.
  intros H. split.
  - rewrite <- Rinv_1 at 1. apply Rinv_le_contravar; lra.
  - replace 2 with (/ (1 / 2)) by field. apply Rinv_le_contravar; lra.
Qed.
Lemma sq_smooth n : smooth_solution 1 sq_F 0 (1 / 2) n sq_Y.
Proof.
  split; [|split].
  - intros i t Hi Ht. unfold sq_Y, sq_F. cbn. ring.
  - intros k i t _ _ Ht. unfold sq_Y. replace (INR (fact (S k))) with (INR (fact k) * INR (S k)) by (rewrite fact_simpl, mult_INR; ring). apply inv_pow_deriv. lra.
  - exists (INR (fact n) * 2 ^ S n). intros k i t Hk _ Ht. unfold sq_Y. destruct (inv_range t Ht) as [A1 A2].
    rewrite Rabs_pos_eq by (apply Rmult_le_pos; [apply pos_INR|apply pow_le; lra]).
    apply Rmult_le_compat; [apply pos_INR|apply pow_le; lra|apply le_INR; now apply fact_le|].
    apply Rle_trans with (2 ^ S k); [apply pow_incr; lra|]. apply Rle_pow; [lra|lia].
Qed.
Lemma sq_lip : lipschitz_near 1 sq_F 0 (1 / 2) (sq_Y 0%nat) 1 6.
Proof.
  intros t x x' r Ht Hx Hx' Hr i Hi. cbv beta. unfold sq_F. specialize (Hx 0%nat ltac:(lia)). specialize (Hx' 0%nat ltac:(lia)). specialize (Hr 0%nat ltac:(lia)).
  cbv beta in *. unfold sq_Y in Hx, Hx'. cbn in Hx, Hx'. destruct (inv_range t Ht) as [A1 A2].
  replace (x 0%nat * x 0%nat - x' 0%nat * x' 0%nat) with ((x 0%nat - x' 0%nat) * (x 0%nat + x' 0%nat)) by ring.
  rewrite Rabs_mult. pose proof (Rabs_pos (x 0%nat - x' 0%nat)). rewrite (Rmult_comm 6).
  apply Rmult_le_compat; [apply Rabs_pos|apply Rabs_pos|exact Hr|].
  apply Rabs_le_between in Hx. apply Rabs_le_between in Hx'. apply Rabs_le. lra.
Qed.
Lemma sq_jac n : smooth_jacobian 1 sq_F 0 (1 / 2) (sq_Y 0%nat) 1 n sq_J.
Proof.
  split; [|split].
  - exists 1. intros t d r i Ht Hd Hr Hi. unfold sq_F, sq_J, sq_Y. specialize (Hd 0%nat ltac:(lia)). rewrite sumR_S. cbn [sumn zero R_ops fact INR pow].
    match goal with |- Rabs ?e <= _ => replace e with (d 0%nat * d 0%nat) by ring end.
    rewrite Rabs_mult, Rmult_1_l, Rmult_1_r. apply Rmult_le_compat; try apply Rabs_pos; exact Hd.
  - intros k i l t _ _ _ Ht. unfold sq_J. replace (2 * INR (fact (S k))) with (2 * INR (fact k) * INR (S k)) by (rewrite fact_simpl, mult_INR; ring). apply inv_pow_deriv. lra.
  - exists (2 * INR (fact n) * 2 ^ S n). intros k i l t Hk _ _ Ht. unfold sq_J. destruct (inv_range t Ht) as [A1 A2].
    pose proof (pos_INR (fact k)). pose proof (le_INR _ _ (fact_le k n Hk)).
    rewrite Rabs_pos_eq by (apply Rmult_le_pos; [lra|apply pow_le; lra]).
    apply Rmult_le_compat; [lra|apply pow_le; lra|lra|].
    apply Rle_trans with (2 ^ S k); [apply pow_incr; lra|]. apply Rle_pow; [lra|lia].
Qed.

(** The second derivative of x^2 is the constant 2 and there is no remainder. *)
Definition sq_H (k _ _ _ : nat) (_ : R) : R := match k with O => 2 | S _ => 0 end.
Lemma sq_hess : smooth_hessian 1 sq_F 0 (1 / 2) (sq_Y 0%nat) 1 (sq_J 0%nat) sq_H.
Proof.
  split; [|split].
  - exists 0. intros t d r i Ht Hd Hr Hi. unfold sq_F, sq_J, sq_Y, sq_H. rewrite !sumR_S. cbn [sumn zero R_ops fact INR pow].
    match goal with |- Rabs ?e <= _ => replace e with 0 by (field; lra) end. rewrite Rabs_R0, Rmult_0_l. lra.
  - intros i l q t _ _ _ Ht. unfold sq_H. apply @is_derive_const.
  - exists 2. intros k i l q t Hk _ _ _ Ht. unfold sq_H. destruct k; rewrite Rabs_pos_eq; lra.
Qed.

(** x' = 1 with any tableau: the state is W (t - t0), W the sum of the weights. *)
Definition one_rhs (_ : R) (_ : vector R) : outcome (vector R) := Ret (mkMatrix 1 1 [1]).
Lemma one_step B t x g h : (1 <= length (tb B))%nat -> tableau_ok (ta B) (tb B) (tc B) -> is_col x 1 g ->
  exists r, do_step B one_rhs t x h = Ret r /\ is_col r 1 (fun i => g i + sumn (length (tb B)) (b_of (tb B)) * h).
Proof.
  intros Hs Hok Hx.
  assert (C : forall u v, exists y k, one_rhs u v = Ret y /\ is_col y 1 k /\ k 0%nat = 1).
  { intros. eexists; eexists. split; [reflexivity|]. split; [exact (is_col_list 0 1 [1] eq_refl)|reflexivity]. }
  assert (Tot : rhs_total one_rhs 1) by (intros u v g' _; destruct (C u v) as (y & k & E & Hy & _); eauto).
  destruct (do_step_spec B one_rhs 1 t x g h Hs Hok Hx Tot) as (r & K & E & [(k0 & E0 & Hk0) HK] & Hr).
  exists r. split; [exact E|]. eapply is_mat_ext; [|exact Hr]. intros i j Hi Hj. assert (i = 0%nat) by lia. subst i. cbn [add mul R_ops]. f_equal. f_equal.
  apply sumR_ext. intros q Hq. assert (KQ : K q 0%nat = 1); [|rewrite KQ; ring].
  destruct q as [|q].
  - destruct (C t x) as (y & k & Ey & Hy & Ek). rewrite E0 in Ey. injection Ey as <-. rewrite (col_unique _ _ _ _ 0 Hk0 Hy) by lia. exact Ek.
  - destruct (HK (S q) ltac:(lia)) as (xj & kj & _ & E1 & Hk). match type of E1 with one_rhs ?u ?v = _ => destruct (C u v) as (y & k & Ey & Hy & Ek) end.
    rewrite E1 in Ey. injection Ey as <-. rewrite (col_unique _ _ _ _ 0 Hk Hy) by lia. exact Ek.
Qed.
Lemma one_run B h t0 t1 init : (1 <= length (tb B))%nat -> tableau_ok (ta B) (tb B) (tc B) -> 0 < h -> t0 <= t1 -> is_col init 1 (fun _ => 0) ->
  exists N tv xv, fixed_solve h (do_step B one_rhs) t0 t1 init = Ret (tv, xv) /\ length tv = S N /\ length xv = S N /\ nth N tv 0 = t1 /\
    exists g, is_col (nth N xv (vzero 0)) 1 g /\ g 0%nat = sumn (length (tb B)) (b_of (tb B)) * (t1 - t0).
Proof.
  intros Hs Hok Hh Ht Hi.
  destruct (fixed_solve_spec h (do_step B one_rhs) t0 t1 init (fun x => exists g, is_col x 1 g) Hh Ht) as (N & tv & xv & HN & ES & L1 & L2 & Hg & Hx0 & HI & Hfol).
  { eexists; exact Hi. }
  { intros t x w _ _ (g & Hx). destruct (one_step B t x g w Hs Hok Hx) as (r & E & Hr). exists r. split; [exact E|]. eexists; exact Hr. }
  exists N, tv, xv. do 3 (split; [assumption|]).
  assert (EN : nth N tv 0 = t1) by (rewrite Hg by lia; apply (grid_N t0 t1 h Hh N HN); lia). split; [exact EN|].
  assert (Main : forall i, (i <= N)%nat -> exists g, is_col (nth i xv (vzero 0)) 1 g /\ g 0%nat = sumn (length (tb B)) (b_of (tb B)) * (nth i tv 0 - t0)).
  { induction i as [|i IH]; intros Hle.
    - exists (fun _ => 0). rewrite Hx0, Hg, grid_0 by (auto; lia). split; [exact Hi|ring].
    - destruct IH as (g & Hgc & Eg); [lia|]. pose proof (Hfol i ltac:(lia)) as FS.
      destruct (one_step B (nth i tv 0) _ g (nth (S i) tv 0 - nth i tv 0) Hs Hok Hgc) as (r & E & Hr). rewrite FS in E. injection E as <-.
      eexists. split; [exact Hr|]. cbv beta. rewrite Eg. ring. }
  destruct (Main N (le_n N)) as (g & Hgc & Eg). exists g. split; [exact Hgc|]. rewrite Eg, EN. reflexivity.
Qed.
Lemma one_smooth n t0 t1 : smooth_solution 1 (fun _ _ _ => 1) t0 t1 n (fun k _ t => match k with 0%nat => t - t0 | 1%nat => 1 | _ => 0 end).
Proof.
  split; [|split].
  - reflexivity.
  - intros k i t _ _ _. destruct k as [|[|k]]; (auto_derive; [exact I|ring]).
  - exists (1 + Rabs (t1 - t0)). intros k i t _ _ Ht. pose proof (Rabs_pos (t1 - t0)). destruct k as [|[|k]].
    + rewrite (Rabs_pos_eq (t - t0)) by lra. pose proof (RRle_abs (t1 - t0)). lra.
    + rewrite Rabs_R1. lra.
    + rewrite Rabs_R0. lra.
Qed.
