(** Property theorems C90: accuracy of the implicit Euler solver.

    Reading guide (OdeImpl_spec.v, OdeConv_spec.v).  [implicit_euler_accurate f jac m t0 t1 y]: a run of
    the solver whose root finder has tolerance tol and iteration limit iters, started within delta of
    y(t0), returns on the grid and stays within C (delta + h + tol / h) of y, one C for all small h,
    delta and tol / h.  [smooth_solution], [lipschitz_near] as in C85; [jacobian_bounded]: the Jacobian
    handed to the solver is bounded near y (it need not be the derivative of F).  [ie_iters] and [ie_tol] are
    the crate's 100 and 1e-8. *)
From Coq Require Import Arith Lia List Bool Reals Lra.
From Coquelicot Require Import Coquelicot.
From Verif Require Import Outcome Scalar RealOps Matrix_model Vector_model Matrix_spec Matrix_proofs Vector_proofs LU_model Optim_model Optim_spec Newton_proofs Ode_model Ode_spec OdeOrder_proofs
  OdeConv_spec OdeSolve_proofs Ode_proofs OdeConseq_proofs OdeConvEx_proofs OdeImpl_spec OdeImplConv_proofs.
Import ListNotations.
Local Open Scope R_scope.

(** Scalar equations with a twice differentiable solution, F Lipschitz and jac bounded near it. *)
Theorem C90_accuracy : forall f jac F J t0 t1 Y rho L, t0 <= t1 -> (forall t, computes (f t) 1 1 (F t)) -> (forall t, computes_mat (jac t) 1 1 1 (J t)) ->
  smooth_solution 1 F t0 t1 2 Y -> 0 < rho -> 0 <= L -> lipschitz_near 1 F t0 t1 (Y 0%nat) rho L -> jacobian_bounded 1 J t0 t1 (Y 0%nat) rho L ->
  implicit_euler_accurate f jac 1 t0 t1 (Y 0%nat).
Proof.
  intros f jac F J t0 t1 Y rho L Ht Hf Hj (HF & HD & M & HB) Hr HL0 HL HJ.
  apply (scalar_solvable f jac F J t0 t1 Y rho L (Rmax M 0) Hf Hj Hr HL0 (Rmax_r _ _) Ht HL HJ HF HD).
  intros k i t Hk Hi Htt. eapply Rle_trans; [exact (HB k i t Hk Hi Htt)|apply Rmax_l].
Qed.
Print Assumptions C90_accuracy.

(** x' = x^2, x(0) = 1 on [0, 1/2]. *)
Example C90_example : (forall t, computes (sq_rhs t) 1 1 (sq_F t)) /\ (forall t, computes_mat (tan_jac t) 1 1 1 (fun g _ _ => 2 * g 0%nat)) /\
  smooth_solution 1 sq_F 0 (1 / 2) 2 sq_Y /\ lipschitz_near 1 sq_F 0 (1 / 2) (sq_Y 0%nat) 1 6 /\
  jacobian_bounded 1 (fun _ g _ _ => 2 * g 0%nat) 0 (1 / 2) (sq_Y 0%nat) 1 6.
Proof.
  split; [exact sq_computes|]. split; [exact tan_jac_computes|]. split; [exact (sq_smooth 2)|]. split; [exact sq_lip|].
  intros t x i j Ht Hx _ _. specialize (Hx 0%nat ltac:(lia)). cbv beta in Hx. unfold sq_Y in Hx. cbn in Hx. destruct (inv_range t Ht) as [A1 A2].
  apply Rabs_le_between in Hx. apply Rabs_le. lra.
Qed.
Example C90_example_conclusion : implicit_euler_accurate sq_rhs tan_jac 1 0 (1 / 2) (sq_Y 0%nat).
Proof. destruct C90_example as (H1 & H2 & H3 & H4 & H5). apply (C90_accuracy sq_rhs tan_jac sq_F (fun _ g _ _ => 2 * g 0%nat) 0 (1 / 2) sq_Y 1 6); auto; lra. Qed.

(** The tolerance is fixed, so the solver does not converge as the step size tends to zero: with
    h |lam a| below 1e-8 a step on x' = lam x from a returns a itself ... *)
Theorem C90_stall : forall f jac lam, (forall t, computes (f t) 1 1 (fun z _ => lam * z 0%nat)) -> (forall t, computes_mat (jac t) 1 1 1 (fun _ _ _ => lam)) -> lam <= 0 ->
  forall t x a h, is_col x 1 (fun _ => a) -> 0 <= h -> h * Rabs (lam * a) < 1 / 100000000 -> ie_step ie_iters ie_tol f jac t x h = Ret x.
Proof.
  intros f jac lam Hf Hj Hl t x a h Hx Hh Hs. apply (scalar_stall f jac lam Hf Hj Hl 99 ie_tol t x a h Hx Hh).
  replace (ie_tol : R) with (1 / 100000000) by (symmetry; exact (lit_R 1 100000000)). exact Hs.
Qed.
Print Assumptions C90_stall.

(** ... and for x' = -x from 1 on [0, 1] every step size below 1e-8 gives the constant 1, although the
    solution exp(-t) ends below 1/2. *)
Theorem C90_converges_refuted : let f := fun (_ : R) x => Ret (vmul_scalar x (-1)) in let jac := fun (_ : R) (_ : vector R) => Ret (mkMatrix 1 1 [-1]) in
  (forall t, computes (f t) 1 1 (fun z _ => -1 * z 0%nat)) /\ (forall t, computes_mat (jac t) 1 1 1 (fun _ _ _ => -1)) /\ exp (-1) < 1 / 2 /\
  forall h, 0 < h < 1 / 100000000 -> exists N tv xv, (1 <= N)%nat /\
    fixed_solve h (ie_step ie_iters ie_tol f jac) 0 1 (mkMatrix 1 1 [1]) = Ret (tv, xv) /\ length xv = S N /\ nth N tv 0 = 1 /\
    forall i, (i <= N)%nat -> nth i xv (vzero 0) = mkMatrix 1 1 [1].
Proof.
  intros f jac.
  assert (Hf : forall t, computes (f t) 1 1 (fun z _ => -1 * z 0%nat)).
  { intros t x g H. eexists. split; [reflexivity|]. generalize (vmul_scalar_col x 1 g (-1) H). apply is_mat_ext. intros i j Hi _. replace i with 0%nat by lia. cbn [mul R_ops]. ring. }
  assert (Hj : forall t, computes_mat (jac t) 1 1 1 (fun _ _ _ => -1)).
  { intros t x g H. eexists. split; [reflexivity|]. apply one_mat. }
  split; [exact Hf|]. split; [exact Hj|]. split; [exact exp_m1_half|]. intros h Hh.
  assert (H1 : is_col (mkMatrix 1 1 [1]) 1 (fun _ => 1)) by apply one_mat.
  destruct (fixed_solve_grid h (ie_step ie_iters ie_tol f jac) 0 1 (mkMatrix 1 1 [1]) (fun _ x => x = mkMatrix 1 1 [1]) ltac:(lra) ltac:(lra) eq_refl) as (N & tv & xv & HN & E & L1 & L2 & Hg & HI).
  - intros N i x HN Hi ->. exists (mkMatrix 1 1 [1]). split; [|reflexivity]. destruct (grid_h_range 0 1 h ltac:(lra) ltac:(lra) i) as [W1 W2].
    apply (C90_stall f jac (-1) Hf Hj ltac:(lra) _ _ 1 _ H1 W1). replace (-1 * 1) with (Ropp 1) by ring. rewrite Rabs_Ropp, Rabs_R1. lra.
  - assert (HN1 : (1 <= N)%nat). { destruct N; [|lia]. exfalso. destruct HN as [_ HN]. cbn [INR] in HN. assert (0 < (1 - 0) / h) by (apply Rdiv_lt_0_compat; lra). lra. }
    exists N, tv, xv. split; [exact HN1|]. split; [exact E|]. split; [exact L2|]. split; [|exact HI].
    rewrite Hg by lia. apply (grid_N 0 1 h ltac:(lra) N HN N (le_n N)).
Qed.
Print Assumptions C90_converges_refuted.

(** Systems.  A step panics whenever the first column of hJ - I is non-positive and has a zero below its
    negative diagonal entry: the pivot search takes the largest signed entry, the zero, and back substitution
    then returns 1 for the first unknown, so the root finder never stops.  This includes every step
    with h = 0 ... *)
Theorem C90_step_panics : forall f jac n F J t h, (2 <= n)%nat -> (forall t, computes (f t) n n (F t)) -> (forall t, computes_mat (jac t) n n n (J t)) ->
  (forall z, h * J (t + h) z 0%nat 0%nat < 1) -> (forall z r, (1 <= r < n)%nat -> h * J (t + h) z r 0%nat <= 0) ->
  (exists r, (1 <= r < n)%nat /\ forall z, h * J (t + h) z r 0%nat = 0) ->
  forall x g, is_col x n g -> ie_step ie_iters ie_tol f jac t x h = Panic.
Proof.
  intros f jac n F J t h Hn Hf Hj H0 H1 (r & Hr & Er) x g Hx. apply (ie_step_fails f jac n F J t h Hf Hj Hn) with (g := g); auto.
  - intros z. rewrite Rmult_comm. apply H0.
  - intros z r' Hr'. rewrite Rmult_comm. now apply H1.
  - exists r. split; [exact Hr|]. intros z. rewrite Rmult_comm. apply Er.
  - replace (ie_tol : R) with (1 / 100000000) by (symmetry; exact (lit_R 1 100000000)). lra.
Qed.
Print Assumptions C90_step_panics.

(** ... and the last iteration of the solver's loop always has h = 0, so in exact arithmetic [solve] panics on
    every system of two or more equations, whatever the right-hand side, Jacobian, step size and interval. *)
Theorem C90_systems_refuted : forall f jac n F J, (2 <= n)%nat -> (forall t, computes (f t) n n (F t)) -> (forall t, computes_mat (jac t) n n n (J t)) ->
  forall h t0 t1 init g, 0 < h -> t0 <= t1 -> is_col init n g -> fixed_solve h (ie_step ie_iters ie_tol f jac) t0 t1 init = Panic.
Proof.
  intros f jac n F J Hn Hf Hj h t0 t1 init g Hh Ht Hi. apply (ie_run_fails f jac n F J Hf Hj Hn ie_iters ie_tol h t0 t1 init g); auto.
  replace (ie_tol : R) with (1 / 100000000) by (symmetry; exact (lit_R 1 100000000)). lra.
Qed.
Print Assumptions C90_systems_refuted.

(** x' = -x, y' = -y: every step of every size h >= 0 panics, although hJ - I is a multiple of the identity. *)
Example C90_systems_example : let f := fun (_ : R) x => Ret (vmul_scalar x (-1)) in let jac := fun (_ : R) (_ : vector R) => Ret (mkMatrix 2 2 [-1; 0; 0; -1]) in
  (forall t, computes (f t) 2 2 (fun z i => -1 * z i)) /\ (forall t, computes_mat (jac t) 2 2 2 (fun _ i j => - delta i j)) /\
  forall t h x g, 0 <= h -> is_col x 2 g -> ie_step ie_iters ie_tol f jac t x h = Panic.
Proof.
  intros f jac.
  assert (Hf : forall t, computes (f t) 2 2 (fun z i => -1 * z i)).
  { intros t x g H. eexists. split; [reflexivity|]. generalize (vmul_scalar_col x 2 g (-1) H). apply is_mat_ext. intros i j Hi _. cbn [mul R_ops]. ring. }
  assert (Hj : forall t, computes_mat (jac t) 2 2 2 (fun _ i j => - delta i j)).
  { intros t x g H. eexists. split; [reflexivity|]. apply diag_2. }
  split; [exact Hf|]. split; [exact Hj|]. intros t h x g Hh Hx.
  apply (C90_step_panics f jac 2 _ _ t h ltac:(lia) Hf Hj) with (g := g); [| | |exact Hx].
  - intros _. unfold delta. cbn. lra.
  - intros _ r Hr. replace r with 1%nat by lia. unfold delta. cbn. lra.
  - exists 1%nat. split; [lia|]. intros _. unfold delta. cbn. lra.
Qed.

(** The same in binary64 whenever the steps add up exactly ([f64_pow]: correctly rounded squares and square
    roots): on x' = y, y' = x from (1, 1) over [0, 1] with step 1/2 both steps succeed one by one,
    but [solve] panics. *)
Theorem C90_systems_f64_refuted :
  f64_swap_step zero (mkMatrix 2 1 [one; one]) (lit 1 2) = Ret (mkMatrix 2 1 [of_Z 2; of_Z 2]) /\
  f64_swap_step (lit 1 2) (mkMatrix 2 1 [of_Z 2; of_Z 2]) (lit 1 2) = Ret (mkMatrix 2 1 [of_Z 4; of_Z 4]) /\
  fixed_solve (lit 1 2) f64_swap_step zero one (mkMatrix 2 1 [one; one]) = Panic.
Proof. exact f64_swap_runs. Qed.
Print Assumptions C90_systems_f64_refuted.
