(** Property theorems C86: convergence of the Adams-Bashforth solver.

    Reading guide (OdeConv_spec.v).  [multistep_converges p solve k f m t0 t1 y]: a run of the solver of
    order k started within delta of y(t0) ends within 1e-10 of t1 and stays within C (delta + h^p) of y
    at every grid point, one C for all small h and delta.  [ab_solve] models AdamsBashforth::solve,
    [bdf_solve] BDF::solve; the fuel bounds the number of steps and any large enough value gives the
    same result.  [smooth_solution], [lipschitz_near], [computes]: see P_OdeConv.v. *)
From Coq Require Import Arith Lia List Bool Reals Lra Psatz.
From Verif Require Import Outcome Scalar RealOps Matrix_model Vector_model Matrix_spec Optim_spec Vector_proofs Ode_model Ode_spec OdeMulti_proofs
  OdeConv_spec OdeGlobal_proofs OdeConvEx_proofs OdeMultiConv_proofs.
Import ListNotations.
Local Open Scope R_scope.

(** Order one for k = 1; order two for k = 2..5, because the first step is Euler's. *)
Theorem C86_adams_bashforth : forall k f m F t0 t1 Y rho L, (1 <= k <= 5)%nat -> t0 < t1 -> (forall t, computes (f t) m m (F t)) ->
  smooth_solution m F t0 t1 (Nat.min k 2 + 1) Y -> 0 < rho -> lipschitz_near m F t0 t1 (Y 0%nat) rho L ->
  multistep_converges (Nat.min k 2) ab_solve k f m t0 t1 (Y 0%nat).
Proof.
  intros k f m F t0 t1 Y rho L Hk Ht Hf (H1 & H2 & M & H3) Hr HL.
  eapply (ab_converges f m k _ F t0 t1 Y rho (Rabs L) (Rabs M)); eauto using lip_abs, Rabs_pos.
  intros r i t A B C. eapply Rle_trans; [exact (H3 r i t A B C)|apply RRle_abs].
Qed.
Print Assumptions C86_adams_bashforth.

(** The solver named BDF, orders 1..5, is the same method (C47). *)
Theorem C86_bdf : forall k f m F t0 t1 Y rho L, (1 <= k <= 5)%nat -> t0 < t1 -> (forall t, computes (f t) m m (F t)) ->
  smooth_solution m F t0 t1 (Nat.min k 2 + 1) Y -> 0 < rho -> lipschitz_near m F t0 t1 (Y 0%nat) rho L ->
  multistep_converges (Nat.min k 2) bdf_solve k f m t0 t1 (Y 0%nat).
Proof.
  intros k f m F t0 t1 Y rho L Hk Ht Hf HY Hr HL. destruct (C86_adams_bashforth k f m F t0 t1 Y rho L Hk Ht Hf HY Hr HL) as (C & H & HH & Conv).
  exists C, H. split; [exact HH|]. intros h delta init g0 A B D E. destruct (Conv h delta init g0 A B D E) as (fuel0 & M & tv & xv & Hs & Rest).
  exists fuel0, M, tv, xv. split; [|exact Rest]. intros fuel Hfuel. rewrite bdf_is_ab by lia. apply Hs. exact Hfuel.
Qed.
Print Assumptions C86_bdf.
Example C86_example : (forall t, computes (sq_rhs t) 1 1 (sq_F t)) /\ smooth_solution 1 sq_F 0 (1 / 2) 3 sq_Y /\
  lipschitz_near 1 sq_F 0 (1 / 2) (sq_Y 0%nat) 1 6.
Proof. split; [exact sq_computes|]. split; [exact (sq_smooth 3)|exact sq_lip]. Qed.
Example C86_example_conclusion : multistep_converges 2 ab_solve 4 sq_rhs 1 0 (1 / 2) (sq_Y 0%nat).
Proof.
  destruct C86_example as (H1 & H2 & H3). apply (C86_adams_bashforth 4 sq_rhs 1 sq_F 0 (1 / 2) sq_Y 1 6); auto; try lia; lra.
Qed.

(** x' = 2 t, x(0) = 0 on [0, 1] has the solution t^2; with k = 2..5 the error is exactly h^2 at every
    time after the first and before the last. *)
Theorem C86_start_error : forall k h init, (2 <= k <= 5)%nat -> 0 < h -> 5 * h <= 1 -> is_col init 1 (fun _ => 0) ->
  exists fuel0 M tv xv, (forall fuel, (fuel0 <= fuel)%nat -> ab_solve ramp_rhs h 1 fuel k 0 init = Ret (Some (tv, xv))) /\
    (2 <= M)%nat /\ length tv = S M /\ length xv = S M /\ 1 - 1 / 10000000000 <= nth M tv 0 <= 1 /\
    (forall i, (i < M)%nat -> nth i tv 0 = INR i * h) /\
    forall i, (1 <= i < M)%nat -> is_col (nth i xv (vzero 0)) 1 (fun _ => (nth i tv 0) ^ 2 - h ^ 2).
Proof. exact ramp_run. Qed.
Print Assumptions C86_start_error.

(** Hence order three is not reached for any k, although k = 3, 4, 5 are offered as orders. *)
Theorem C86_order_refuted : forall k p, (2 <= k <= 5)%nat -> (3 <= p)%nat ->
  ~ multistep_converges p ab_solve k ramp_rhs 1 0 1 (fun _ t => t ^ 2).
Proof.
  intros k p Hk Hp (C & H & HH & Conv).
  assert (HC : 0 < 2 * (Rabs C + 1)) by (pose proof (Rabs_pos C); lra).
  set (h := Rmin (Rmin H (1 / 5)) (/ (2 * (Rabs C + 1)))).
  assert (Hh : 0 < h) by (unfold h; apply Rmin_glb_lt; [apply Rmin_glb_lt; lra|now apply Rinv_0_lt_compat]).
  assert (Hh1 : h <= H) by (unfold h; eapply Rle_trans; [apply Rmin_l|apply Rmin_l]).
  assert (Hh2 : h <= 1 / 5) by (unfold h; eapply Rle_trans; [apply Rmin_l|apply Rmin_r]).
  assert (Hh3 : (Rabs C + 1) * h <= 1 / 2).
  { assert (Q : h <= / (2 * (Rabs C + 1))) by apply Rmin_r. apply (Rmult_le_compat_l (2 * (Rabs C + 1))) in Q; [|lra]. rewrite Rinv_r in Q; lra. }
  destruct (col_exists 1 (fun _ => 0)) as (init & Hi).
  destruct (Conv h 0 init (fun _ => 0)) as (fuel1 & M1 & tv1 & xv1 & E1 & L1 & _ & _ & _ & Err); [lra|lra|exact Hi| |].
  { intros l Hl. cbv beta. replace (0 - 0 ^ 2) with 0 by ring. rewrite Rabs_R0. lra. }
  destruct (C86_start_error k h init Hk Hh ltac:(lra) Hi) as (fuel2 & M & tv & xv & E2 & HM & L2 & _ & _ & Ht & Hx).
  pose proof (E1 (Nat.max fuel1 fuel2) ltac:(lia)) as E. rewrite (E2 (Nat.max fuel1 fuel2) ltac:(lia)) in E. injection E as <- <-.
  destruct (Err 1%nat ltac:(lia)) as (g & Hg & Wi). specialize (Wi 0%nat ltac:(lia)). cbv beta in Wi.
  rewrite (col_unique _ _ _ _ 0 Hg (Hx 1%nat ltac:(lia))) in Wi by lia.
  replace (nth 1 tv 0 ^ 2 - h ^ 2 - nth 1 tv 0 ^ 2) with (- h ^ 2) in Wi by ring.
  assert (H2 : 0 < h ^ 2) by (apply pow_lt; exact Hh). rewrite Rabs_Ropp, Rabs_pos_eq in Wi by lra.
  assert (Hpow : h ^ p <= h ^ 2 * h).
  { replace p with (3 + (p - 3))%nat by lia. rewrite pow_add. replace (h ^ 3) with (h ^ 2 * h) by ring. rewrite <- (Rmult_1_r (h ^ 2 * h)) at 2.
    apply Rmult_le_compat_l; [nra|]. rewrite <- (pow1 (p - 3)). apply pow_incr. lra. }
  assert (0 <= h ^ p) by (apply pow_le; lra). pose proof (RRle_abs C). pose proof (Rabs_pos C).
  assert (C * (0 + h ^ p) <= Rabs C * (h ^ 2 * h)) by (rewrite Rplus_0_l; apply Rle_trans with (Rabs C * h ^ p); [apply Rmult_le_compat_r; lra|apply Rmult_le_compat_l; lra]).
  assert (h ^ 2 * (Rabs C * h) <= h ^ 2 * (1 / 2)) by (apply Rmult_le_compat_l; nra). lra.
Qed.
Print Assumptions C86_order_refuted.
(** The problem meets the hypotheses of the convergence theorem with all derivatives. *)
Example C86_order_example : (forall t, computes (ramp_rhs t) 1 1 (fun _ _ => 2 * t)) /\
  smooth_solution 1 (fun t _ _ => 2 * t) 0 1 6 (fun r _ t => match r with 0%nat => t ^ 2 | 1%nat => 2 * t | 2%nat => 2 | _ => 0 end).
Proof. split; [exact ramp_computes|exact (ramp_smooth 6)]. Qed.
