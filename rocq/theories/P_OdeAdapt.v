(** Property theorems C92, C93: termination and accuracy of the adaptive solvers.

    Reading guide.  [adapt_solve ctl step q fuel t0 t1 init] is ProportionalControl::solve with at most
    [fuel] passes of its loop: [Ret None] = not finished yet, [Ret (Some None)] = Err, [Ret (Some (Some _))] =
    Ok.  [embedded_list]: the shipped embedded methods with the orders they report; [cash_karp45] (whose
    orders are swapped, C40) is added with its true order.  [adaptive_accurate] and
    [adaptive_converges_with_order] are in OdeConv_spec.v; the remaining notions are those of C85. *)
From Coq Require Import Arith Lia List Bool Reals Lra.
From Verif Require Import Outcome Scalar RealOps Matrix_model Vector_model Matrix_spec Optim_spec Vector_proofs Ode_model Ode_spec OdeOrder_proofs OdeSolve_proofs
  OdeConv_spec OdeConvEx_proofs OdeAdapt_proofs.
Import ListNotations.
Local Open Scope R_scope.

(** * C92: termination. If the error measure of every step of width w from the states in I is at most
    K w, the loop ends after finitely many passes; with n_max at least the given number it ends with Ok. *)
Theorem C92_terminates : forall (p : @pcontrol R) step q t0 t1 K (I : R -> vector R -> Prop) init,
  0 < h_0 p -> 0 < fac p < 1 -> 0 < fac_min p < 1 -> 1 <= fac_max p -> 0 < K -> t0 <= t1 -> I t0 init ->
  (forall t x w, I t x -> t0 <= t -> 0 < w -> t + w <= t1 ->
     exists y yh e, step t x w = Ret (y, yh) /\ calc_error p y yh = Ret e /\ 0 <= e <= K * w /\ (e <= 1 -> I (t + w) y)) ->
  exists fuel0 res, (forall fuel, (fuel0 <= fuel)%nat -> adapt_solve p step q fuel t0 t1 init = Ret (Some res)) /\
    ((t1 - t0) / Rmin (h_0 p) (fac_min p * Rpower (fac p) (INR q + 1) / K) <= INR (n_max p) -> exists tv xv, res = Some (tv, xv)).
Proof.
  intros p step q t0 t1 K I init H0 H1 H2 H3 HK Ht HI Hs. apply (adapt_solve_terminates p step q t0 t1 K (t1 - t0) I); auto; [right; lra|].
  intros t x w Hx Htt [Hw _] Hle. apply Hs; auto.
Qed.
Print Assumptions C92_terminates.

(** Every right-hand side whose first component is bounded, every shipped method, every dimension; no
    smoothness is assumed. *)
Theorem C92_bounded : forall (p : @pcontrol R) B q pp pp' f m F t0 t1 Fm K init,
  In (B, (pp, pp')) embedded_list \/ (B = cash_karp45 /\ pp = 4%nat /\ pp' = 5%nat) ->
  0 < h_0 p -> 0 < fac p < 1 -> 0 < fac_min p < 1 -> 1 <= fac_max p -> 0 < abs_tol p -> 0 <= rel_tol p -> t0 <= t1 -> (0 < m)%nat ->
  (forall t, computes (f t) m m (F t)) -> (forall t x, t0 <= t <= t1 -> Rabs (F t x 0%nat) <= Fm) -> 0 < K ->
  Fm * (sumn (length (tb2 B)) (fun j => Rabs (b_of (tb2 B) j)) + sumn (length (tbs2 B)) (fun j => Rabs (b_of (tbs2 B) j))) <= K * abs_tol p ->
  (exists g, is_col init m g) ->
  exists fuel0 res, (forall fuel, (fuel0 <= fuel)%nat -> adapt_solve p (do_step2 B f) q fuel t0 t1 init = Ret (Some res)) /\
    ((t1 - t0) / Rmin (h_0 p) (fac_min p * Rpower (fac p) (INR q + 1) / K) <= INR (n_max p) -> exists tv xv, res = Some (tv, xv)).
Proof. exact adaptive_bounded. Qed.
Print Assumptions C92_bounded.
(** x' = 1/(1+x^2) with Dormand-Prince and the default controller. *)
Example C92_example : let p := (pc_default : @pcontrol R) in
  In (dormand_prince, dormand_prince_order) embedded_list /\ 0 < h_0 p /\ 0 < fac p < 1 /\ 0 < fac_min p < 1 /\ 1 <= fac_max p /\ 0 < abs_tol p /\ 0 <= rel_tol p /\
  (forall t, computes (bell_rhs t) 1 1 (bell_F t)) /\ (forall t x, 0 <= t <= 1 -> Rabs (bell_F t x 0%nat) <= 1).
Proof.
  cbv zeta. split; [simpl; tauto|]. cbn [pc_default h_0 fac fac_min fac_max abs_tol rel_tol]. rewrite !lit_R. do 6 (split; [lra|]).
  split; [exact bell_computes|intros; apply bell_bounded].
Qed.
(** The bound on the error is needed: C45 gives a run that never ends. *)

(** * C93: accuracy. A successful run whose steps are at most h wide is within C (delta + h^p) of the
    solution; for methods of order five the exponent here is four,
    C93_order_5 has the full order. *)
Theorem C93_accuracy : forall B p p', In (B, (p, p')) embedded_list \/ (B = cash_karp45 /\ p = 4%nat /\ p' = 5%nat) ->
  forall f m F t0 t1 Y rho L, t0 <= t1 -> (forall t, computes (f t) m m (F t)) ->
  smooth_solution m F t0 t1 (p + 1) Y -> 0 < rho -> lipschitz_near m F t0 t1 (Y 0%nat) rho L ->
  ((3 <= p)%nat -> exists J, smooth_jacobian m F t0 t1 (Y 0%nat) rho (Nat.min p 4 - 2) J) ->
  adaptive_accurate (Nat.min p 4) B f m t0 t1 (Y 0%nat).
Proof. exact adaptive_shipped. Qed.
Print Assumptions C93_accuracy.
(** With fac_max = 1 the solver terminates, succeeds for large n_max and converges as h_0 tends to 0. *)
Theorem C93_converges : forall B p p', In (B, (p, p')) embedded_list \/ (B = cash_karp45 /\ p = 4%nat /\ p' = 5%nat) ->
  forall f m F t0 t1 Y rho L, (0 < m)%nat -> t0 <= t1 -> (forall t, computes (f t) m m (F t)) ->
  smooth_solution m F t0 t1 (p + 1) Y -> 0 < rho -> lipschitz_near m F t0 t1 (Y 0%nat) rho L ->
  ((3 <= p)%nat -> exists J, smooth_jacobian m F t0 t1 (Y 0%nat) rho (Nat.min p 4 - 2) J) ->
  adaptive_converges_with_order (Nat.min p 4) B f m t0 t1 (Y 0%nat).
Proof. exact adaptive_converges_shipped. Qed.
Print Assumptions C93_converges.
(** Fehlberg45 and DormandPrince, which report order five: both statements with exponent five, for right-hand
    sides with a second derivative in the state along the solution ([smooth_hessian]). *)
Theorem C93_order_5 : forall B p', In (B, (5%nat, p')) embedded_list ->
  forall f m F t0 t1 Y rho L J Hs2, (0 < m)%nat -> t0 <= t1 -> (forall t, computes (f t) m m (F t)) ->
  smooth_solution m F t0 t1 6 Y -> 0 < rho -> lipschitz_near m F t0 t1 (Y 0%nat) rho L ->
  smooth_jacobian m F t0 t1 (Y 0%nat) rho 3 J -> smooth_hessian m F t0 t1 (Y 0%nat) rho (J 0%nat) Hs2 ->
  adaptive_accurate 5 B f m t0 t1 (Y 0%nat) /\ adaptive_converges_with_order 5 B f m t0 t1 (Y 0%nat).
Proof. exact adaptive_converges_5. Qed.
Print Assumptions C93_order_5.
Example C93_order_5_example : In (fehlberg45, (5, 4)%nat) embedded_list /\ In (dormand_prince, (5, 4)%nat) embedded_list /\
  adaptive_accurate 5 dormand_prince sq_rhs 1 0 (1 / 2) (sq_Y 0%nat) /\ adaptive_converges_with_order 5 dormand_prince sq_rhs 1 0 (1 / 2) (sq_Y 0%nat).
Proof.
  assert (HB : In (dormand_prince, (5, 4)%nat) embedded_list) by (simpl; tauto). split; [simpl; tauto|]. split; [exact HB|].
  apply (C93_order_5 dormand_prince 4 HB sq_rhs 1 sq_F 0 (1 / 2) sq_Y 1 6 sq_J sq_H);
    try lra; try lia; try exact sq_computes; try apply sq_smooth; try exact sq_lip; try apply sq_jac; exact sq_hess.
Qed.
Example C93_example : adaptive_converges_with_order 4 fehlberg45 sq_rhs 1 0 (1 / 2) (sq_Y 0%nat) /\
  adaptive_accurate 4 fehlberg45 sq_rhs 1 0 (1 / 2) (sq_Y 0%nat).
Proof.
  assert (HB : In (fehlberg45, fehlberg45_order) embedded_list) by (simpl; tauto).
  split; [apply (C93_converges fehlberg45 _ _ (or_introl HB) sq_rhs 1 sq_F 0 (1 / 2) sq_Y 1 6)|apply (C93_accuracy fehlberg45 _ _ (or_introl HB) sq_rhs 1 sq_F 0 (1 / 2) sq_Y 1 6)];
    try lra; try lia; try exact sq_computes; try apply sq_smooth; try exact sq_lip; intros _; exists sq_J; apply sq_jac.
Qed.
