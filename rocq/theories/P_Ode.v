(** Property theorems C39-C47: ordinary differential equations.

    Reading guide.  A right-hand side is [f : T -> vector T -> outcome (vector T)]; [rhs_total f m]:
    it returns an m-vector for every m-vector.  [is_col v m g]: v is a column vector of length m with
    entries g.  A tableau is three lists a, b, c; [a_of], [b_of], [c_of] are its entries,
    [rk_stages] the stage equations, [has_order] the order conditions for all rooted trees,
    [grid t0 t1 h i] = min (t0 + i h) t1, [follows]/[follows_within] that each state is one step from
    its predecessor, [adams_weights] and [bdf_weights] the defining equations of the multistep
    weights (Ode_spec.v). *)
From Coq Require Import Arith Lia List Bool ZArith Reals Lra.
From Verif Require Import Outcome Scalar RealOps Matrix_model Vector_model Matrix_spec Vector_proofs Sums Ode_model Ode_spec Ode_proofs OdeOrder_proofs OrderExact_proofs Ralston4_proofs OdeConseq_proofs OdeSolve_proofs OdeMulti_proofs.
Import ListNotations.
Local Open Scope R_scope.

(** * C39: one Runge-Kutta step, any scalar type, no laws *)
Theorem C39_step : forall (T : Type) (O : Ops T) (B : tableau T) f m t x g h,
  (1 <= length (tb B))%nat -> tableau_ok (ta B) (tb B) (tc B) -> is_col x m g -> rhs_total f m ->
  exists r K, do_step B f t x h = Ret r /\ rk_stages (ta B) (tc B) (length (tb B)) f m t x g h K /\
    is_col r m (fun i => (g i + sumn (length (tb B)) (fun j => K j i * b_of (tb B) j) * h)%sc).
Proof. intros T O. exact do_step_spec. Qed.
Print Assumptions C39_step.
Theorem C39_embedded_step : forall (T : Type) (O : Ops T) (B : tableau2 T) f m t x g h,
  (1 <= length (tb2 B))%nat -> tableau_ok (ta2 B) (tb2 B) (tc2 B) -> (length (tbs2 B) <= length (tb2 B))%nat ->
  is_col x m g -> rhs_total f m ->
  exists r rs K, do_step2 B f t x h = Ret (r, rs) /\
    rk_stages (ta2 B) (tc2 B) (length (tb2 B)) f m t x g h K /\
    is_col r m (fun i => (g i + sumn (length (tb2 B)) (fun j => K j i * b_of (tb2 B) j) * h)%sc) /\
    is_col rs m (fun i => (g i + sumn (length (tbs2 B)) (fun j => K j i * b_of (tbs2 B) j) * h)%sc).
Proof. intros T O. exact do_step2_spec. Qed.
Print Assumptions C39_embedded_step.
(** A step that returns had a complete tableau, so the hypothesis above is necessary. *)
Theorem C39_needs_tableau : forall (T : Type) (O : Ops T) (B : tableau T) f t x h r,
  (1 <= length (tb B))%nat -> do_step B f t x h = Ret r -> tableau_ok (ta B) (tb B) (tc B).
Proof.
  intros T O B f t x h r Hs H. unfold do_step in H. apply bind_ret in H as (k & H & _).
  exact (stages_ret_ok _ _ _ _ _ _ _ _ H Hs).
Qed.
Print Assumptions C39_needs_tableau.
(** Exact for every constant right-hand side iff the weights sum to one. *)
Theorem C39_constant : forall (T : Type) (O : Ops T), RingLaws O -> forall B : tableau T,
  (1 <= length (tb B))%nat -> tableau_ok (ta B) (tb B) (tc B) ->
  (sumn (length (tb B)) (b_of (tb B)) = one <->
   forall m kv k t x g h, is_col kv m k -> is_col x m g ->
     exists r, do_step B (fun _ _ => Ret kv) t x h = Ret r /\ is_col r m (fun i => (g i + k i * h)%sc)).
Proof. intros T O L. exact (const_step L). Qed.
Print Assumptions C39_constant.
Example C39_example : (1 <= length (tb (rungekutta4 : tableau R)))%nat /\
  tableau_ok (ta (rungekutta4 : tableau R)) (tb (rungekutta4 : tableau R)) (tc (rungekutta4 : tableau R)) /\
  rhs_total recip_rhs 1.
Proof. split; [simpl; lia|]. split; [split; vm_compute; lia|exact recip_total]. Qed.

(** * C40: orders *)
Theorem C40_order : forall B p, In (B, p) fixed_list ->
  row_sums (ta B) (tb B) (tc B) /\ has_order (ta B) (tb B) (tc B) p.
Proof. exact fixed_orders. Qed.
Print Assumptions C40_order.
Theorem C40_embedded_order : forall B p p', In (B, (p, p')) embedded_list ->
  row_sums (ta2 B) (tb2 B) (tc2 B) /\ has_order (ta2 B) (tb2 B) (tc2 B) p /\ has_order (ta2 B) (tbs2 B) (tc2 B) p'.
Proof. exact embedded_orders. Qed.
Print Assumptions C40_embedded_order.
(** The reported orders are exact: a condition of the next order fails. *)
Theorem C40_exact : forall B p, In (B, p) fixed_list -> ~ has_order (ta B) (tb B) (tc B) (S p).
Proof. exact fixed_exact. Qed.
Print Assumptions C40_exact.
Theorem C40_embedded_exact : forall B p p', In (B, (p, p')) embedded_list ->
  ~ has_order (ta2 B) (tb2 B) (tc2 B) (S p) /\ ~ has_order (ta2 B) (tbs2 B) (tc2 B) (S p').
Proof. exact embedded_exact. Qed.
Print Assumptions C40_embedded_exact.
Example C40_example : In (rungekutta4, 4%nat) fixed_list /\ In (dormand_prince, (5, 4)%nat) embedded_list.
Proof. split; [simpl; tauto|simpl; tauto]. Qed.
(** Consequences for every right-hand side of two classes: f(t) a polynomial of degree below the
    order is integrated exactly; for x' = A x the step agrees with exp(hA) x up to h^p. *)
Theorem C40_quadrature : forall (B : tableau R) p m (f : R -> vector R -> outcome (vector R)) (q : nat -> nat -> R),
  (1 <= length (tb B))%nat -> tableau_ok (ta B) (tb B) (tc B) ->
  row_sums (ta B) (tb B) (tc B) -> has_order (ta B) (tb B) (tc B) p ->
  (forall u x, exists y, f u x = Ret y /\ is_col y m (fun i => sumn p (fun k => q i k * u ^ k))) ->
  forall t x g h, is_col x m g -> exists r, do_step B f t x h = Ret r /\
    forall F : nat -> R -> R, (forall i u, derivable_pt_lim (F i) u (sumn p (fun k => q i k * u ^ k))) ->
    is_col r m (fun i => g i + (F i (t + h) - F i t)).
Proof. exact quadrature_step. Qed.
Print Assumptions C40_quadrature.
Theorem C40_linear : forall (B : tableau R) p m (Am : matrix R) A,
  (1 <= length (tb B))%nat -> tableau_ok (ta B) (tb B) (tc B) ->
  has_order (ta B) (tb B) (tc B) p -> is_mat Am m m A ->
  exists w : nat -> R, (forall k, (k <= p)%nat -> w k = 1 / INR (fact k)) /\
  forall t x g h, is_col x m g -> exists r,
    do_step B (fun _ y => mmul_vec Am y) t x h = Ret r /\
    is_col r m (fun i => sumn (S (length (tb B))) (fun k => w k * h ^ k * mat_iter m A k g i)).
Proof. exact linear_step. Qed.
Print Assumptions C40_linear.
(** The two exceptions. [s5] stands for the square root of five. *)
Theorem C40_ralston4_refuted : forall s5 : R, 0 <= s5 <= 3 ->
  let B := ralston4 s5 in ~ has_order (ta B) (tb B) (tc B) 1.
Proof.
  intros s5 Hs B H. specialize (H (Node []) (le_n 1)). destruct (ralston4_weight_sum s5) as [Hne|]; [|lra].
  apply Hne. rewrite (sumR_ext _ (b_of (tb B)) (fun j => b_of (tb B) j * tphi (a_of (ta B)) (Node []) j)).
  - etransitivity; [exact H|]. simpl. lra.
  - intros i _. cbn [tphi fold_right one R_ops]. ring.
Qed.
Print Assumptions C40_ralston4_refuted.
Theorem C40_ralston4_order_refuted : let B := ralston4 (sqrt 5) in ralston4_order = 4%nat /\ ~ has_order (ta B) (tb B) (tc B) ralston4_order.
Proof.
  split; [reflexivity|]. intros H. apply (C40_ralston4_refuted (sqrt 5)); [split; [apply sqrt_pos|rewrite <- (sqrt_square 3) by lra; apply sqrt_le_1_alt; lra]|].
  intros t Ht. apply H. unfold ralston4_order. lia.
Qed.
Print Assumptions C40_ralston4_order_refuted.
Example C40_ralston4_example : 0 <= sqrt 5 <= 3.
Proof. split; [apply sqrt_pos|]. replace 3 with (sqrt (3 * 3)) by (apply sqrt_square; lra). apply sqrt_le_1; lra. Qed.
(** One digit is at fault: with 3346 for 3356 in the third weight, the tableau has order four. *)
Theorem C40_ralston4_digit : let B := ralston4 (sqrt 5) in
  let b' := [nth 0 (tb B) 0; nth 1 (tb B) 0; 1024 * (3346 + 1623 * sqrt 5) / 5924787; nth 3 (tb B) 0] in
  nth 2 (tb B) 0 = 1024 * (3356 + 1623 * sqrt 5) / 5924787 /\ length (tb B) = 4%nat /\
  row_sums (ta B) (tb B) (tc B) /\ has_order (ta B) b' (tc B) 4.
Proof.
  cbv zeta. split; [cbn [ralston4 tb nth]; rewrite !of_Z_R; reflexivity|]. split; [reflexivity|]. split; [apply ralston4_fixed|].
  replace (1024 * (3346 + 1623 * sqrt 5) / 5924787) with (nth 2 (fix3 (sqrt 5) (tb (ralston4 (sqrt 5)))) 0) by (cbn [ralston4 fix3 firstn skipn app tb nth]; rewrite !of_Z_R; reflexivity).
  exact (proj2 ralston4_fixed).
Qed.
Print Assumptions C40_ralston4_digit.
Theorem C40_cash_karp_refuted : let B := (cash_karp45 : tableau2 R) in
  cash_karp45_order = (5, 4)%nat /\ ~ has_order (ta2 B) (tb2 B) (tc2 B) 5 /\
  has_order (ta2 B) (tb2 B) (tc2 B) 4 /\ has_order (ta2 B) (tbs2 B) (tc2 B) 5 /\ ~ has_order (ta2 B) (tbs2 B) (tc2 B) 6.
Proof.
  split; [reflexivity|]. split; [exact cash_karp_not5|]. destruct cash_karp_swapped as (_ & H4 & H5). split; [exact H4|]. split; [exact H5|exact cash_karp_exact].
Qed.
Print Assumptions C40_cash_karp_refuted.

(** * C41: the fixed-step driver. [I] is any property of states the method preserves. *)
Theorem C41_fixed_grid : forall h step t0 t1 init (I : vector R -> Prop),
  0 < h -> t0 <= t1 -> I init ->
  (forall t x w, t0 <= t <= t1 -> 0 <= w <= h -> I x -> exists x', step t x w = Ret x' /\ I x') ->
  exists N tv xv, INR N - 1 < (t1 - t0) / h <= INR N /\
    fixed_solve h step t0 t1 init = Ret (tv, xv) /\ length tv = S N /\ length xv = S N /\
    (forall i, (i <= N)%nat -> nth i tv 0 = grid t0 t1 h i) /\
    nth 0 tv 0 = t0 /\ nth N tv 0 = t1 /\ increasing tv /\
    nth 0 xv (vzero 0) = init /\ (forall i, (i <= N)%nat -> I (nth i xv (vzero 0))) /\ follows step tv xv.
Proof.
  intros h step t0 t1 init I Hh Ht HI Hs.
  destruct (fixed_solve_spec h step t0 t1 init I Hh Ht HI Hs) as (N & tv & xv & HN & E & L1 & L2 & Hg & H0 & HI' & Hf).
  exists N, tv, xv. repeat (split; [assumption|]).
  split; [rewrite Hg by lia; apply grid_0; assumption|].
  split; [rewrite Hg by lia; apply (grid_N t0 t1 h Hh N HN); lia|].
  split; [exact (grid_list_increasing t0 t1 h N tv Ht Hh HN L1 Hg)|]. auto.
Qed.
Print Assumptions C41_fixed_grid.
Theorem C41_panics : forall h step t0 t1 init, (t1 < t0 -> fixed_solve h step t0 t1 init = Panic) /\
  (h <= 0 -> fixed_new h = Panic) /\ (0 < h -> fixed_new h = Ret h).
Proof.
  intros h step t0 t1 init. unfold fixed_solve, fixed_new. cbn [ltb leb R_ops zero]. split; [|split]; intros H.
  - rewrite (proj2 (R_ltb_true t1 t0) H). reflexivity.
  - rewrite (proj2 (R_leb_true h 0) H). reflexivity.
  - rewrite (proj2 (R_leb_false h 0) H). reflexivity.
Qed.
Print Assumptions C41_panics.
(** In binary64 the last time need not be t_stop: with step 0.1 on [0, 1] it is 1 - 2^-53. *)
Theorem C41_end_f64_refuted : exists tv xv,
  fixed_solve (lit 1 10 : f64) (do_step explicit_euler (fun _ x => Ret x)) zero one (vzero 1) = Ret (tv, xv) /\
  length tv = 11%nat /\ eqb (nth 10 tv zero) one = false.
Proof. eexists. eexists. split; [vm_compute; reflexivity|]. split; vm_compute; reflexivity. Qed.
Print Assumptions C41_end_f64_refuted.
Example C41_example : 0 < 1 / 4 /\ 0 <= 1 /\ is_col (vzero 2 : vector R) 2 (fun _ => 0) /\
  (forall t x w, 0 <= t <= 1 -> 0 <= w <= 1 / 4 -> (exists g, is_col x 2 g) ->
     exists x', do_step rungekutta4 (fun _ y => Ret y) t x w = Ret x' /\ exists g, is_col x' 2 g).
Proof.
  split; [lra|]. split; [lra|]. split; [exact (vzero_spec 2)|]. intros t x w _ _ (g & Hx).
  destruct (do_step_spec rungekutta4 (fun _ y => Ret y) 2 t x g w) as (r & K & E & _ & Hr);
    [simpl; lia|split; vm_compute; lia|exact Hx|intros ? ? ? ?; eauto|eauto].
Qed.

(** * C42: the right-hand side is used only on the span *)
Theorem C42_fixed : forall (B : tableau R) f1 f2 h t0 t1 init,
  (forall k, (k < length (tb B) - 1)%nat -> 0 <= nth k (tc B) 0 <= 1) -> 0 < h ->
  (forall t x, t0 <= t <= t1 -> f1 t x = f2 t x) ->
  fixed_solve h (do_step B f1) t0 t1 init = fixed_solve h (do_step B f2) t0 t1 init.
Proof.
  intros B f1 f2 h t0 t1 init Hc Hh Hf. apply fixed_solve_ext; [exact Hh|].
  intros t x w Ht Hw Hb. apply (do_step_ext B f1 f2 t x w t0 t1); auto.
Qed.
Print Assumptions C42_fixed.
Theorem C42_adaptive : forall (B : tableau2 R) f1 f2 p q fuel t0 t1 init,
  (forall k, (k < length (tb2 B) - 1)%nat -> 0 <= nth k (tc2 B) 0 <= 1) ->
  0 < h_0 p -> 0 < fac_min p -> 0 < fac_max p ->
  (forall t x, t0 <= t <= t1 -> f1 t x = f2 t x) ->
  adapt_solve p (do_step2 B f1) q fuel t0 t1 init = adapt_solve p (do_step2 B f2) q fuel t0 t1 init.
Proof.
  intros B f1 f2 p q fuel t0 t1 init Hc H0 H1 H2 Hf. apply adapt_solve_ext; auto.
  intros t x w Ht Hw Hb. apply (do_step2_ext B f1 f2 t x w t0 t1); auto.
Qed.
Print Assumptions C42_adaptive.
(** All shipped tableaux qualify. *)
Theorem C42_shipped_nodes :
  (forall B p, In (B, p) fixed_list -> forall k, (k < length (tb B) - 1)%nat -> 0 <= nth k (tc B) 0 <= 1) /\
  (forall B p, In (B, p) embedded_list \/ B = cash_karp45 -> forall k, (k < length (tb2 B) - 1)%nat -> 0 <= nth k (tc2 B) 0 <= 1).
Proof.
  split; intros B p H k Hk.
  - destruct (fixed_nodes B p H) as (HL & Hn). apply Hn. lia.
  - destruct (embedded_nodes B p H) as (HL & Hn). apply Hn. lia.
Qed.
Print Assumptions C42_shipped_nodes.
(** Two right-hand sides that agree exactly on the times in [0,1]: x and, after time 1, 2x. *)
Example C42_example : let f1 := fun (t : R) (x : vector R) => Ret x in
  let f2 := fun (t : R) (x : vector R) => if Rle_dec t 1 then Ret x else Ret (vmul_scalar x 2) in
  (forall init, fixed_solve (1 / 10) (do_step rungekutta4 f1) 0 1 init = fixed_solve (1 / 10) (do_step rungekutta4 f2) 0 1 init) /\
  (forall fuel init, adapt_solve pc_default (do_step2 dormand_prince f1) 4 fuel 0 1 init = adapt_solve pc_default (do_step2 dormand_prince f2) 4 fuel 0 1 init) /\
  f1 2 (mkMatrix 1 1 [1]) <> f2 2 (mkMatrix 1 1 [1]).
Proof.
  intros f1 f2. assert (E : forall t x, 0 <= t <= 1 -> f1 t x = f2 t x) by (intros t x H; unfold f1, f2; destruct (Rle_dec t 1); [reflexivity|lra]).
  split; [|split].
  - intros init. apply C42_fixed; [|lra|exact E]. apply (proj1 C42_shipped_nodes) with (p := 4%nat). unfold fixed_list. cbn [In]. tauto.
  - intros fuel init. apply C42_adaptive; [|unfold pc_default; cbn; lra..|exact E].
    apply (proj2 C42_shipped_nodes) with (p := (5, 4)%nat). left. unfold embedded_list. cbn [In]. tauto.
  - unfold f1, f2. destruct (Rle_dec 2 1); [lra|]. intros H. injection H. cbn. lra.
Qed.

(** * C43: the adaptive driver. [Some (Some _)] is Ok, [Some None] is Err. *)
Theorem C43_adaptive : forall p step q fuel t0 t1 init tv xv,
  0 < h_0 p -> 0 < fac_min p -> 0 < fac_max p ->
  adapt_solve p step q fuel t0 t1 init = Ret (Some (Some (tv, xv))) ->
  exists n, (n <= n_max p)%nat /\ length tv = S n /\ length xv = S n /\
    nth 0 tv 0 = t0 /\ nth 0 xv (vzero 0) = init /\ nth n tv 0 = t1 /\ increasing tv /\
    follows_within step (calc_error p) tv xv.
Proof.
  intros p step q fuel t0 t1 init tv xv H0 H1 H2 H.
  destruct (adapt_solve_spec p step q fuel t0 t1 init _ H0 H1 H2 H) as (_ & n & tv' & xv' & xn & tn & Hr & <- & <- & <-).
  unfold run_ok in Hr. exists n. tauto.
Qed.
Print Assumptions C43_adaptive.
(** Err is returned only when n_max steps were accepted before the end was reached. *)
Theorem C43_err : forall p step q fuel t0 t1 init,
  0 < h_0 p -> 0 < fac_min p -> 0 < fac_max p ->
  adapt_solve p step q fuel t0 t1 init = Ret (Some None) ->
  exists tv xv, length tv = S (n_max p) /\ length xv = S (n_max p) /\ nth 0 tv 0 = t0 /\ nth 0 xv (vzero 0) = init /\
    nth (n_max p) tv 0 < t1 /\ increasing tv /\ follows_within step (calc_error p) tv xv.
Proof.
  intros p step q fuel t0 t1 init H0 H1 H2 H.
  destruct (adapt_solve_spec p step q fuel t0 t1 init _ H0 H1 H2 H) as (_ & n & tv & xv & xn & tn & Hr & -> & Hlt).
  unfold run_ok in Hr. exists tv, xv. decompose [and] Hr. subst tn. tauto.
Qed.
Print Assumptions C43_err.
Example C43_example : 0 < h_0 (pc_default : @pcontrol R) /\ 0 < fac_min (pc_default : @pcontrol R) /\ 0 < fac_max (pc_default : @pcontrol R).
Proof. cbn [pc_default h_0 fac_min fac_max]. rewrite !lit_R. lra. Qed.

(** The step-size factor stays between its bounds; consecutive accepted steps grow at most by
    max(1, fac_max), and the first is at most h_0. *)
Theorem C43_step_factor : forall (p : @pcontrol R) l e, fac_min p <= fac_max p ->
  fac_min p <= step_factor p l e <= fac_max p.
Proof. exact step_factor_range. Qed.
Print Assumptions C43_step_factor.
Theorem C43_step_growth : forall (p : @pcontrol R) step q fuel t0 t1 init tv xv,
  0 < h_0 p -> 0 <= fac p <= 1 -> 0 < fac_min p -> fac_min p <= 1 -> 0 < fac_max p ->
  adapt_solve p step q fuel t0 t1 init = Ret (Some (Some (tv, xv))) ->
  ((2 <= length tv)%nat -> nth 1 tv 0 - nth 0 tv 0 <= h_0 p) /\
  forall i, (S (S i) < length tv)%nat ->
    nth (S (S i)) tv 0 - nth (S i) tv 0 <= Rmax 1 (fac_max p) * (nth (S i) tv 0 - nth i tv 0).
Proof. exact adapt_solve_grow. Qed.
Print Assumptions C43_step_growth.
Example C43_growth_example : let p := (pc_default : @pcontrol R) in
  0 < h_0 p /\ 0 <= fac p <= 1 /\ 0 < fac_min p /\ fac_min p <= 1 /\ fac_min p <= fac_max p /\ 0 < fac_max p.
Proof. cbn [pc_default h_0 fac fac_min fac_max]. rewrite !lit_R. lra. Qed.

(** Setting a tolerance panics exactly for negative values and changes nothing else. *)
Theorem C43_tolerances : forall (p : @pcontrol R) a,
  (a < 0 -> set_abs_tol p a = Panic /\ set_rel_tol p a = Panic) /\
  (0 <= a -> exists pa pr, set_abs_tol p a = Ret pa /\ set_rel_tol p a = Ret pr /\
     abs_tol pa = a /\ rel_tol pa = rel_tol p /\ abs_tol pr = abs_tol p /\ rel_tol pr = a /\
     (n_max pa, h_0 pa, fac pa, fac_min pa, fac_max pa) = (n_max p, h_0 p, fac p, fac_min p, fac_max p) /\
     (n_max pr, h_0 pr, fac pr, fac_min pr, fac_max pr) = (n_max p, h_0 p, fac p, fac_min p, fac_max p)).
Proof.
  intros p a. unfold set_abs_tol, set_rel_tol. cbn [ltb zero R_ops]. split; intros H.
  - rewrite (proj2 (R_ltb_true a 0) H). auto.
  - rewrite (proj2 (R_ltb_false a 0) H). eexists. eexists. repeat split.
Qed.
Print Assumptions C43_tolerances.

(** * C44: the error measure sees only component 0 *)
Theorem C44_first_component : forall (T : Type) (O : Ops T) (P : POps T) (p : pcontrol) (y yh z zh : vector T) m fy fyh fz fzh,
  (0 < m)%nat -> is_col y m fy -> is_col yh m fyh -> is_col z m fz -> is_col zh m fzh ->
  fy 0%nat = fz 0%nat -> fyh 0%nat = fzh 0%nat -> calc_error p y yh = calc_error p z zh.
Proof.
  intros T O P p y yh z zh m fy fyh fz fzh Hm Hy Hyh Hz Hzh E1 E2.
  rewrite (calc_error_col p y yh m fy fyh Hm Hy Hyh), (calc_error_col p z zh m fz fzh Hm Hz Hzh), E1, E2. reflexivity.
Qed.
Print Assumptions C44_first_component.
(** For every bound there is a pair of 2-vectors whose second components differ by more than the
    bound while the error measure is zero, so the step is accepted. *)
Theorem C44_unbounded_error : forall (p : @pcontrol R) (bound : R), abs_tol p <> 0 ->
  exists (y yh : vector R) g gh, is_col y 2 g /\ is_col yh 2 gh /\ bound < Rabs (g 1%nat - gh 1%nat) /\ calc_error p y yh = Ret 0.
Proof.
  intros p bound Ha.
  destruct (vnew_column_spec 2 [0; Rabs bound + 1] 0 eq_refl) as (y & _ & Hy).
  exists y, (vzero 2). eexists. eexists. split; [exact Hy|]. split; [exact (vzero_spec 2)|]. split.
  - cbn [nth]. change (@zero R R_ops) with 0. pose proof (Rle_abs bound). pose proof (Rabs_pos bound).
    rewrite Rabs_right by lra. lra.
  - rewrite (calc_error_col p y _ 2 _ _ ltac:(lia) Hy (vzero_spec 2)). f_equal.
    cbn [nth tsqrt R_pops add sub mul div zero one tabs R_ops]. rewrite Rabs_R0. etransitivity; [|exact sqrt_0]. f_equal. field. rewrite ?Rmult_0_l, ?Rplus_0_r; assumption.
Qed.
Print Assumptions C44_unbounded_error.
Example C44_example : abs_tol (pc_default : @pcontrol R) <> 0.
Proof. cbn [pc_default abs_tol]. rewrite lit_R. lra. Qed.

(** * C45: non-termination. [Ret None]: not finished within the given number of iterations. *)
Theorem C45_nonterminating : forall (p : @pcontrol R) t1 init,
  0 < t1 -> (0 < n_max p)%nat -> 0 < h_0 p -> 0 < fac_min p -> 0 < fac_max p -> 0 < abs_tol p < 1 / 512 ->
  is_col init 1 (fun _ => - (1021 / 512)) ->
  rhs_total recip_rhs 1 /\
  forall fuel, adapt_solve p (do_step2 fehlberg12 recip_rhs) (fst fehlberg12_order) fuel 0 t1 init = Ret None.
Proof.
  intros p t1 init Ht Hn H0 H1 H2 Ha Hi. split; [exact recip_total|]. intros fuel. unfold adapt_solve.
  cbn [ltb R_ops]. rewrite (proj2 (R_ltb_false t1 0)) by lra. cbv zeta.
  rewrite (recip_never p init _ t1 Ht Hn H1 H2 Ha Hi fuel (h_0 p)) by exact H0. reflexivity.
Qed.
Print Assumptions C45_nonterminating.
Example C45_example : let p := (pc_default : @pcontrol R) in
  (0 < n_max p)%nat /\ 0 < h_0 p /\ 0 < fac_min p /\ 0 < fac_max p /\ 0 < abs_tol p < 1 / 512.
Proof. cbn [pc_default n_max h_0 fac_min fac_max abs_tol]. rewrite !lit_R. split; [apply Nat.ltb_lt; reflexivity|lra]. Qed.

(** * C46: Adams-Bashforth *)
Theorem C46_adams_bashforth : forall f m h t0 t1 k init g0,
  rhs_total f m -> 0 < h -> t0 <= t1 -> (1 <= k <= 5)%nat -> is_col init m g0 ->
  exists fuel0 M tv xv, (forall fuel, (fuel0 <= fuel)%nat -> ab_solve f h t1 fuel k t0 init = Ret (Some (tv, xv))) /\
    (k - 1 <= M)%nat /\ length tv = S M /\ length xv = S M /\
    (forall i, (i <= M)%nat -> nth i tv 0 = grid t0 t1 h i) /\ t1 - 1 / 10000000000 <= nth M tv 0 <= t1 /\
    nth 0 xv (vzero 0) = init /\
    ((INR (k - 1) * h <= t1 - t0) -> increasing tv) /\
    exists X F, (forall i, (i <= M)%nat -> is_col (nth i xv (vzero 0)) m (X i) /\
        exists y, f (nth i tv 0) (nth i xv (vzero 0)) = Ret y /\ is_col y m (F i)) /\
      forall i, (1 <= i <= M)%nat -> exists beta, adams_weights (Nat.min i k) beta /\
        forall c, (c < m)%nat -> X i c = X (i - 1)%nat c +
          (nth i tv 0 - nth (i - 1) tv 0) * sumn (Nat.min i k) (fun l => beta l * F (i - 1 - l)%nat c).
Proof.
  intros f m h t0 t1 k init g0 Hf Hh Ht Hk Hi.
  assert (Hy : 0 <= (t1 - t0) / h) by (apply Rmult_le_pos; [lra|left; apply Rinv_0_lt_compat; exact Hh]).
  destruct (steps_spec ((t1 - t0) / h) Hy) as (N & _ & HN).
  destruct (ms_solve_spec f m Hf ab_step 5 ab_beta (fun j => j) (ab_step_spec f m) t0 t1 h Ht Hh k Hk init g0 N HN Hi)
    as (M & tv & xv & HM & Hs & L1 & L2 & Hg & Hend & Hbefore & H0 & X & F & (_ & Hh') & Hrec).
  exists (Nat.max N (k - 1)), M, tv, xv. split; [exact Hs|]. split; [lia|]. split; [exact L1|]. split; [exact L2|].
  split; [exact Hg|]. split; [rewrite Hg by lia; pose proof (grid_in t0 t1 h Ht Hh M); lra|]. split; [exact H0|]. split.
  - intros Hfit i Hi'. rewrite !Hg by lia. apply grid_lt; auto.
    destruct (Nat.lt_ge_cases i (k - 1)) as [Hlt|Hge].
    + assert (INR i + 1 <= INR (k - 1)) by (rewrite <- S_INR; apply le_INR; lia). unfold grid. rewrite Rmin_left; nra.
    + specialize (Hbefore i ltac:(lia)). lra.
  - exists X, F. split; [intros i Hi'; apply Hh'; lia|]. intros i Hi'. exists (ab_beta (Nat.min i k)).
    split; [apply ab_beta_weights; lia|]. intros c Hc. rewrite !Hg by lia. exact (Hrec i Hi' c Hc).
Qed.
Print Assumptions C46_adams_bashforth.
Example C46_example : rhs_total recip_rhs 1 /\ 0 < 1 / 10 /\ 0 <= 1 /\ INR (5 - 1) * (1 / 10) <= 1 - 0.
Proof. split; [exact recip_total|]. simpl. lra. Qed.
(** When the span is shorter than the start-up phase the times repeat. *)
Theorem C46_increasing_refuted : exists fuel0 tv xv,
  (forall fuel, (fuel0 <= fuel)%nat -> ab_solve recip_rhs 1 1 fuel 5 0 (vzero 1) = Ret (Some (tv, xv))) /\ ~ increasing tv.
Proof.
  destruct (C46_adams_bashforth recip_rhs 1 1 0 1 5 (vzero 1) _ recip_total ltac:(lra) ltac:(lra) ltac:(lia) (vzero_spec 1))
    as (fuel0 & M & tv & xv & Hs & HM & L1 & L2 & Hg & _).
  exists fuel0, tv, xv. split; [exact Hs|]. intros Hinc. specialize (Hinc 1%nat ltac:(lia)).
  rewrite !Hg in Hinc by lia. unfold grid in Hinc. simpl in Hinc.
  rewrite !Rmin_right in Hinc by lra. lra.
Qed.
Print Assumptions C46_increasing_refuted.

(** The constructors accept exactly the orders 1..5 (1..6 for BDF) and positive step sizes. *)
Theorem C46_new : forall k (h : R) r,
  (ms_new 5 k h = Ret r <-> (1 <= k <= 5)%nat /\ 0 < h /\ r = (k, h)) /\
  (ms_new 6 k h = Ret r <-> (1 <= k <= 6)%nat /\ 0 < h /\ r = (k, h)).
Proof. intros k h r. split; apply ms_new_iff. Qed.
Print Assumptions C46_new.
Example C46_new_example : ms_new 5 5 (1 : R) = Ret (5%nat, 1).
Proof. apply C46_new. repeat split; lia || lra. Qed.

(** * C47: the solver named BDF *)
Theorem C47_bdf_is_adams_bashforth : forall (T : Type) (O : Ops T) f h t1 fuel k t0 init, (k <= 5)%nat ->
  bdf_solve f h t1 fuel k t0 init = ab_solve f h t1 fuel k t0 init.
Proof. exact bdf_is_ab. Qed.
Print Assumptions C47_bdf_is_adams_bashforth.
(** The BDF relation of order k fails at its first full step for x' = x, h = 1, x(0) = 1. *)
Theorem C47_bdf_relation_refuted : forall k alpha init, (1 <= k <= 6)%nat -> bdf_weights k alpha -> is_col init 1 (fun _ => 1) ->
  exists fuel0 tv xv X, (forall fuel, (fuel0 <= fuel)%nat ->
      bdf_solve (fun _ y => Ret y) 1 10 fuel k 0 init = Ret (Some (tv, xv))) /\
    (k < length xv)%nat /\
    (forall i, (i <= k)%nat -> nth i tv 0 = INR i /\ is_col (nth i xv (vzero 0)) 1 (fun _ => X i)) /\
    X 0%nat = 1 /\ sumn (S k) (fun l => alpha l * X (k - l)%nat) <> 1 * X k.
Proof. exact bdf_relation_fails. Qed.
Print Assumptions C47_bdf_relation_refuted.
Example C47_example : bdf_weights 2 (fun l => nth l [3/2; -2; 1/2] 0).
Proof. intros q Hq. do 3 (destruct q as [|q]; [cbn; lra|]). lia. Qed.
