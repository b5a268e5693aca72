(** Property theorems C85: the fixed-step solvers converge to the solution.

    Reading guide (OdeConv_spec.v).  [converges_with_order p B f m t0 t1 y]: a run of the fixed-step
    solver with tableau B started within delta of y(t0) stays within C (delta + h^p) of y at every
    grid point, one C for all small h and delta.  [smooth_solution]: y and its derivatives up to the
    given number exist on [t0, t1], are bounded and y' = F(t, y); [lipschitz_near]: F is Lipschitz in
    the state near the curve only; [smooth_jacobian]: F has a Jacobian with quadratic remainder along
    the curve.  [computes]: the user's code f returns F for every state of dimension m.  [has_order]
    and [row_sums] are the order conditions of Ode_spec.v, [fixed_list] the shipped methods with the
    order each reports. *)
From Coq Require Import Arith Lia List Bool Reals Lra.
From Verif Require Import Outcome Scalar RealOps Matrix_model Vector_model Matrix_spec Optim_spec Vector_proofs Ode_model Ode_spec OdeOrder_proofs OdeMulti_proofs
  OdeConv_spec OdeGlobal_proofs OdeConvEx_proofs.
Import ListNotations.
Local Open Scope R_scope.

(** Every shipped fixed-step method (Ralston4 apart) converges with the order it reports, for every
    dimension and every problem with a smooth enough solution. *)
Theorem C85_shipped : forall B p, In (B, p) fixed_list ->
  forall f m F t0 t1 Y rho L, t0 <= t1 -> (forall t, computes (f t) m m (F t)) ->
  smooth_solution m F t0 t1 (p + 1) Y -> 0 < rho -> lipschitz_near m F t0 t1 (Y 0%nat) rho L ->
  ((3 <= p)%nat -> exists J, smooth_jacobian m F t0 t1 (Y 0%nat) rho (p - 2) J) ->
  converges_with_order p B f m t0 t1 (Y 0%nat).
Proof.
  intros B p HB f m F t0 t1 Y rho L Ht Hf HY Hr HL HJ. destruct (fixed_ok B p HB) as (Hs & Hok & Hp). destruct (fixed_orders B p HB) as [Hrow Hord].
  assert (Hn : forall k, (k < length (tb B) - 1)%nat -> 0 <= nth k (tc B) 0 <= 1).
  { intros k Hk. destruct (fixed_nodes B p HB) as (Hl & Hn). apply Hn. lia. }
  rewrite Nat.add_1_r in HY. destruct (le_lt_dec p 2) as [H2|H2].
  - eapply conv_low; eauto; lia.
  - destruct HJ as (J & HJ); [lia|]. eapply conv_high; eauto; lia.
Qed.
Print Assumptions C85_shipped.

(** Any tableau that meets the order conditions, orders one and two: no Jacobian is needed. *)
Theorem C85_order_2 : forall B p f m F t0 t1 Y rho L, (1 <= p <= 2)%nat -> (1 <= length (tb B))%nat ->
  tableau_ok (ta B) (tb B) (tc B) -> row_sums (ta B) (tb B) (tc B) -> has_order (ta B) (tb B) (tc B) p ->
  (forall k, (k < length (tb B) - 1)%nat -> 0 <= nth k (tc B) 0 <= 1) ->
  t0 <= t1 -> (forall t, computes (f t) m m (F t)) ->
  smooth_solution m F t0 t1 (p + 1) Y -> 0 < rho -> lipschitz_near m F t0 t1 (Y 0%nat) rho L ->
  converges_with_order p B f m t0 t1 (Y 0%nat).
Proof. intros B p f m F t0 t1 Y rho L Hp Hs Hok Hrow Hord Hn Ht Hf HY Hr HL. rewrite Nat.add_1_r in HY. eapply conv_low; eauto. Qed.
Print Assumptions C85_order_2.

(** Orders three and four. *)
Theorem C85_order_4 : forall B p f m F t0 t1 Y rho L J, (3 <= p <= 4)%nat -> (1 <= length (tb B))%nat ->
  tableau_ok (ta B) (tb B) (tc B) -> row_sums (ta B) (tb B) (tc B) -> has_order (ta B) (tb B) (tc B) p ->
  (forall k, (k < length (tb B) - 1)%nat -> 0 <= nth k (tc B) 0 <= 1) ->
  t0 <= t1 -> (forall t, computes (f t) m m (F t)) ->
  smooth_solution m F t0 t1 (p + 1) Y -> 0 < rho -> lipschitz_near m F t0 t1 (Y 0%nat) rho L ->
  smooth_jacobian m F t0 t1 (Y 0%nat) rho (p - 2) J ->
  converges_with_order p B f m t0 t1 (Y 0%nat).
Proof. intros B p f m F t0 t1 Y rho L J Hp Hs Hok Hrow Hord Hn Ht Hf HY Hr HL HJ. rewrite Nat.add_1_r in HY. eapply conv_high; eauto. Qed.
Print Assumptions C85_order_4.

(** Order five: the second derivative of the right-hand side in the state is needed too ([smooth_hessian]). *)
Theorem C85_order_5 : forall B f m F t0 t1 Y rho L J Hs2, (1 <= length (tb B))%nat ->
  tableau_ok (ta B) (tb B) (tc B) -> row_sums (ta B) (tb B) (tc B) -> has_order (ta B) (tb B) (tc B) 5 ->
  (forall k, (k < length (tb B) - 1)%nat -> 0 <= nth k (tc B) 0 <= 1) ->
  t0 <= t1 -> (forall t, computes (f t) m m (F t)) ->
  smooth_solution m F t0 t1 6 Y -> 0 < rho -> lipschitz_near m F t0 t1 (Y 0%nat) rho L ->
  smooth_jacobian m F t0 t1 (Y 0%nat) rho 3 J -> smooth_hessian m F t0 t1 (Y 0%nat) rho (J 0%nat) Hs2 ->
  converges_with_order 5 B f m t0 t1 (Y 0%nat).
Proof. intros B f m F t0 t1 Y rho L J Hs2 Hs Hok Hrow Hord Hn Ht Hf HY Hr HL HJ HH. eapply conv_5; eauto. Qed.
Print Assumptions C85_order_5.
(** The main method of the Dormand-Prince pair, used with a fixed step. *)
Example C85_order_5_example : let B := (dormand_prince : tableau2 R) in
  converges_with_order 5 (mkTableau (ta2 B) (tb2 B) (tc2 B)) sq_rhs 1 0 (1 / 2) (sq_Y 0%nat).
Proof.
  cbv zeta. destruct (embedded_orders dormand_prince 5 4) as (Hrow & Hord & _); [simpl; tauto|].
  apply (C85_order_5 (mkTableau (ta2 dormand_prince) (tb2 dormand_prince) (tc2 dormand_prince)) sq_rhs 1 sq_F 0 (1 / 2) sq_Y 1 6 sq_J sq_H);
    try lra; try exact sq_computes; try apply sq_smooth; try exact sq_lip; try apply sq_jac; try exact sq_hess; cbn [ta tb tc]; auto.
  - vm_compute. lia.
  - split; vm_compute; lia.
  - intros k Hk. destruct (embedded_nodes dormand_prince (5%nat, 4%nat)) as (HL' & Hn); [left; simpl; tauto|]. apply Hn. lia.
Qed.

(** x' = x^2, x(0) = 1 on [0, 1/2] (not Lipschitz on the whole line): RK4 converges with order four to
    1/(1-t). *)
Example C85_example : In (rungekutta4, 4%nat) fixed_list /\ (forall t, computes (sq_rhs t) 1 1 (sq_F t)) /\
  smooth_solution 1 sq_F 0 (1 / 2) 5 sq_Y /\ lipschitz_near 1 sq_F 0 (1 / 2) (sq_Y 0%nat) 1 6 /\
  smooth_jacobian 1 sq_F 0 (1 / 2) (sq_Y 0%nat) 1 2 sq_J.
Proof.
  split; [simpl; tauto|]. split; [exact sq_computes|]. split; [exact (sq_smooth 5)|]. split; [exact sq_lip|exact (sq_jac 2)].
Qed.
Example C85_example_conclusion : converges_with_order 4 rungekutta4 sq_rhs 1 0 (1 / 2) (sq_Y 0%nat).
Proof.
  destruct C85_example as (H1 & H2 & H3 & H4 & H5).
  apply (C85_shipped rungekutta4 4 H1 sq_rhs 1 sq_F 0 (1 / 2) sq_Y 1 6); auto; try lra. intros _. exists sq_J. exact H5.
Qed.

(** Ralston4 does not converge, even for x' = 1: with either sign of rounding in the constant (any s5
    between 0 and 3) the final error does not depend on h. *)
Theorem C85_ralston4_refuted : forall s5 p, 0 <= s5 <= 3 -> (1 <= p)%nat ->
  ~ converges_with_order p (ralston4 s5) one_rhs 1 0 1 (fun _ t => t).
Proof.
  intros s5 p Hs5 Hp (C & H & HH & Conv). destruct (ralston4_weight_sum s5) as [HW|]; [|lra].
  set (W := sumn 4 (b_of (tb (ralston4 s5)))) in *. set (e := Rabs (W - 1)).
  assert (He : 0 < e) by (apply Rabs_pos_lt; lra).
  set (h := Rmin (Rmin H 1) (e / 2 / (Rabs C + 1))).
  assert (HC : 0 < Rabs C + 1) by (pose proof (Rabs_pos C); lra).
  assert (Hh : 0 < h) by (unfold h; apply Rmin_glb_lt; [apply Rmin_glb_lt; lra|apply Rdiv_lt_0_compat; lra]).
  assert (Hh1 : h <= H) by (unfold h; eapply Rle_trans; [apply Rmin_l|apply Rmin_l]).
  assert (Hh2 : h <= 1) by (unfold h; eapply Rle_trans; [apply Rmin_l|apply Rmin_r]).
  assert (Hh3 : (Rabs C + 1) * h <= e / 2).
  { assert (Q : h <= e / 2 / (Rabs C + 1)) by apply Rmin_r. apply (Rmult_le_compat_l (Rabs C + 1)) in Q; [|lra].
    replace ((Rabs C + 1) * (e / 2 / (Rabs C + 1))) with (e / 2) in Q by (field; lra). exact Q. }
  destruct (col_exists 1 (fun _ => 0)) as (init & Hi).
  destruct (Conv h 0 init (fun _ => 0)) as (N & tv & xv & _ & E & L1 & _ & _ & Err); [lra|lra|exact Hi| |].
  { intros l Hl. cbv beta. rewrite Rminus_0_r, Rabs_R0. lra. }
  destruct (one_run (ralston4 s5) h 0 1 init) as (N' & tv' & xv' & E' & L1' & _ & EN & g & Hg & Eg); [simpl; lia|split; vm_compute; lia|lra|lra|exact Hi|].
  rewrite E in E'. injection E' as <- <-. assert (N' = N) by lia. subst N'.
  destruct (Err N (le_n N)) as (g' & Hg' & Wi). specialize (Wi 0%nat ltac:(lia)). cbv beta in Wi. rewrite EN in Wi.
  rewrite (col_unique _ _ _ _ 0 Hg' Hg) in Wi by lia. rewrite Eg in Wi. change (length (tb (ralston4 s5))) with 4%nat in Wi. fold W in Wi.
  replace (W * (1 - 0) - 1) with (W - 1) in Wi by ring. fold e in Wi.
  assert (Hpow : h ^ p <= h).
  { destruct p as [|q]; [lia|]. cbn [pow]. rewrite <- (Rmult_1_r h) at 3. apply Rmult_le_compat_l; [lra|]. rewrite <- (pow1 q). apply pow_incr. lra. }
  assert (0 <= h ^ p) by (apply pow_le; lra). pose proof (RRle_abs C). pose proof (Rabs_pos C). nra.
Qed.
Print Assumptions C85_ralston4_refuted.
