(** Property theorems C48-C53 and C68: root finding, implicit Euler, optimisation, pseudo inverse.

    Reading guide.  User code is a function that returns or panics; [computes func n m F]: on every
    n-vector with entries g it returns the m-vector with entries F g; [computes_mat jac n p q J] the
    same for matrices.  [mv n A x] is A x, [dot n x y] the scalar product, [sumsq n x] the squared and
    [enorm n x] the Euclidean norm, [frob] the Frobenius norm.  [solver_ok A n f]: [A.solve(b)]
    returns the unique solution for every b (by C16, when the LU decomposition has no zero pivot).
    The remaining vocabulary ([newton_run], [descent_run], [cg_run], ..) is in Optim_spec.v.
    Loops without an iteration limit in the source carry a fuel argument; [None]: fuel exhausted. *)
From Coq Require Import Arith Lia List Bool ZArith Reals Lra Psatz SpecFloat QArith Qcanon.
From Verif Require Import Outcome Scalar RealOps Matrix_model Vector_model Matrix_spec Matrix_proofs Vector_proofs LU_model LU_spec LUProps_proofs Decomp_model Decomp_spec Sums Norm_proofs Ortho_proofs DecompProps_proofs QcCompute Ode_model Ode_spec OdeOrder_proofs OdeConseq_proofs P_Ode Ode_proofs Optim_model Optim_spec Newton_proofs Descent_proofs CG_proofs CGRate_proofs LM_proofs OptimEx_proofs OptimEx2_proofs GNLocal_proofs Convex_proofs LMConv_proofs NewtonMin_proofs.
Import ListNotations.
Local Close Scope Q_scope.
Local Open Scope R_scope.

(** * C48 *)

(** A complete run.  X_0, X_1, .. are the Newton iterates, B_j the corrections, J(X_j) B_j = F(X_j).
    [Ok x]: x is the first iterate whose correction is shorter than the tolerance, found within the
    iteration limit.  [Err]: all corrections of all allowed iterations are at least the tolerance. *)
Theorem C48_run : forall func jac n F J, computes func n n F -> computes_mat jac n n n J ->
  (forall x g A, is_col x n g -> jac x = Ret A -> solver_ok A n (J g)) ->
  forall tol iters x0 g0, is_col x0 n g0 ->
  exists r k X B, find_root iters tol func jac x0 = Ret r /\ newton_run n F J g0 k X B /\
    match r with
    | Ok x => (1 <= k <= iters)%nat /\ is_col x n (X (k - 1)%nat) /\ enorm n (B (k - 1)%nat) < tol /\
              forall j, (j < k - 1)%nat -> tol <= enorm n (B j)
    | Err => k = iters /\ forall j, (j < k)%nat -> tol <= enorm n (B j)
    end.
Proof. exact find_root_spec. Qed.
Print Assumptions C48_run.

(** The hypothesis on [solve] holds for every matrix whose LU decomposition has no zero pivot. *)
Theorem C48_regular : forall (A : matrix R) n f d, is_mat A n n f -> dec_lu A = Ret (Ok d) ->
  (forall k x, (k < n)%nat -> mget (lu_u d) k k = Ret x -> x <> 0) -> solver_ok A n f.
Proof. intros A n f d HA Hd Hz. apply (regular_solver_ok A n f HA). exists d. auto. Qed.
Print Assumptions C48_regular.
(** In particular for diagonally dominant matrices. *)
Theorem C48_dominant : forall (A : matrix R) n f, is_mat A n n f ->
  (forall c, (c < n)%nat -> sumn n (fun r => if (r =? c)%nat then 0 else Rabs (f r c)) < f c c) -> solver_ok A n f.
Proof. intros A n f HA Hdd. apply (regular_solver_ok A n f HA). exact (dd_regular A n f HA Hdd). Qed.
Print Assumptions C48_dominant.

(** The residual at a returned point is at most |J| times the tolerance. *)
Theorem C48_residual : forall func jac n F J, computes func n n F -> computes_mat jac n n n J ->
  (forall x g A, is_col x n g -> jac x = Ret A -> solver_ok A n (J g)) ->
  forall tol iters x0 g0 x, is_col x0 n g0 -> find_root iters tol func jac x0 = Ret (Ok x) ->
  exists g, is_col x n g /\ enorm n (F g) <= frob n n (J g) * tol.
Proof.
  intros func jac n F J HF HJ HS tol iters x0 g0 x Hx E.
  destruct (find_root_spec func jac n F J HF HJ HS tol iters x0 g0 Hx) as (r & k & X & B & E' & (_ & Hrun) & Hr).
  rewrite E in E'. injection E' as <-. destruct Hr as (Hk & Hc & Hlt & _). exists (X (k - 1)%nat). split; [exact Hc|].
  destruct (Hrun (k - 1)%nat ltac:(lia)) as (_ & HB).
  rewrite (enorm_ext n (F (X (k - 1)%nat)) (mv n (J (X (k - 1)%nat)) (B (k - 1)%nat))) by (intros; symmetry; auto).
  apply Rle_trans with (1 := mv_bound n n _ _). apply Rmult_le_compat_l; [apply sqrt_pos|lra].
Qed.
Print Assumptions C48_residual.

Theorem C48_at_root : forall func jac n F J, computes func n n F -> computes_mat jac n n n J ->
  forall iters tol x g, is_col x n g -> (forall A, jac x = Ret A -> solver_ok A n (J g)) ->
  (forall i, (i < n)%nat -> F g i = 0) -> 0 < tol -> find_root (S iters) tol func jac x = Ret (Ok x).
Proof. exact find_root_at_root. Qed.
Print Assumptions C48_at_root.

Theorem C48_no_iterations : forall (T : Type) (O : Ops T) (P : POps T) (tol : T) func jac x, find_root 0 tol func jac x = Ret Err.
Proof. reflexivity. Qed.
Print Assumptions C48_no_iterations.

(** Affine equations are solved exactly by the first step, so two iterations always suffice. *)
Theorem C48_affine : forall func jac n F J, computes func n n F -> computes_mat jac n n n J ->
  forall iters tol x g M c s, is_col x n g -> 0 < tol ->
  (forall y h A, is_col y n h -> jac y = Ret A -> solver_ok A n (J h)) ->
  (forall h, J h = M) -> (forall h i, (i < n)%nat -> F h i = mv n M h i - c i) ->
  (forall i, (i < n)%nat -> mv n M s i = c i) ->
  exists w h, find_root (S (S iters)) tol func jac x = Ret (Ok w) /\ is_col w n h /\
    ((forall i, (i < n)%nat -> h i = s i) \/ (w = x /\ enorm n (fun i => g i - s i) < tol)).
Proof. exact find_root_affine. Qed.
Print Assumptions C48_affine.
(** The system 3x + y = 5, x + 2y = 5 (solution (1,2)), from (10,-7), with tolerance 1/1000. *)
Example C48_affine_example : exists w h, find_root 2 (1 / 1000) e2_func e2_jac (mkMatrix 2 1 [10; -7]) = Ret (Ok w) /\ is_col w 2 h /\
  h 0%nat = 1 /\ h 1%nat = 2.
Proof.
  destruct (C48_affine _ _ _ _ _ e2_func_computes e2_jac_computes 0 (1/1000) _ _ e2_A e2_b (v2 1 2) (is_v2 10 (-7)) ltac:(lra)) as (w & h & E & Hw & H); auto.
  - intros y h A _ E. exact (e2_jac_solver y A E).
  - exact e2_solution.
  - exists w, h. split; [exact E|]. split; [exact Hw|]. destruct H as [H|(_ & H)]; [split; [apply (H 0%nat)|apply (H 1%nat)]; lia|exfalso].
    revert H. apply Rle_not_lt. unfold enorm. rewrite sumsq_2. cbv [v2 nth]. rewrite <- (sqrt_Rsqr (1 / 1000)) by lra. apply sqrt_le_1_alt. unfold Rsqr. lra.
Qed.

(** Local convergence: in a ball of radius rho around a root r where the Jacobian is bounded below by
    m and the linearisation error is at most K |x - r|^2 with K rho <= m/2, every start succeeds once
    2^iters exceeds 3/2 e0 / tol, and the result is within 2 tol of the root. *)
Theorem C48_local : forall func jac n F J, computes func n n F -> computes_mat jac n n n J ->
  forall r rho m K tol, 0 < tol -> 0 < m -> 0 <= K -> K * rho <= m / 2 ->
  (forall x g A, is_col x n g -> enorm n (fun i => g i - r i) <= rho -> jac x = Ret A -> solver_ok A n (J g)) ->
  (forall g y, enorm n (fun i => g i - r i) <= rho -> m * enorm n y <= enorm n (mv n (J g) y)) ->
  (forall g, enorm n (fun i => g i - r i) <= rho ->
     enorm n (fun i => F g i - mv n (J g) (fun k => g k - r k) i) <= K * Rsqr (enorm n (fun i => g i - r i))) ->
  forall iters x0 g0 e0, is_col x0 n g0 -> enorm n (fun i => g0 i - r i) <= e0 -> e0 <= rho ->
  3 / 2 * e0 < tol * 2 ^ iters ->
  exists x g, find_root (S iters) tol func jac x0 = Ret (Ok x) /\ is_col x n g /\ enorm n (fun i => g i - r i) < 2 * tol.
Proof. exact find_root_local. Qed.
Print Assumptions C48_local.

(** Each step squares the error, up to the factor K/m. *)
Theorem C48_quadratic : forall n F J g0 k X B r m K j, newton_run n F J g0 k X B -> (j < k)%nat -> 0 < m ->
  (forall y, m * enorm n y <= enorm n (mv n (J (X j)) y)) ->
  enorm n (fun i => F (X j) i - mv n (J (X j)) (fun k => X j k - r k) i) <= K * Rsqr (enorm n (fun i => X j i - r i)) ->
  enorm n (fun i => X (S j) i - r i) <= K / m * Rsqr (enorm n (fun i => X j i - r i)).
Proof.
  intros n F J g0 k X B r m K j (_ & Hrun) Hj Hm H1 H2. destruct (Hrun j Hj) as (Hx & HB).
  rewrite (enorm_ext n (fun i => X (S j) i - r i) (fun i => (X j i - B j i) - r i)) by (intros i Hi; rewrite Hx by assumption; reflexivity).
  exact (newton_quadratic n F J r m K (X j) (B j) Hm H1 H2 HB).
Qed.
Print Assumptions C48_quadratic.

(** All hypotheses are met by x^2 - 2 near sqrt 2. *)
Example C48_example : forall tol x0 a k, 0 < tol -> is_col x0 1 (fun _ => a) -> Rabs (a - sqrt 2) <= 1 / 4 -> 3 / 8 < tol * 2 ^ k ->
  exists x g, find_root (S k) tol sq2_func sq2_jac x0 = Ret (Ok x) /\ is_col x 1 g /\ Rabs (g 0%nat - sqrt 2) < 2 * tol.
Proof. exact find_sqrt2. Qed.

(** * C49 *)

(** A step that returns z: x + h f(t + h, z) - z is at most |h J - I| tol. *)
Theorem C49_step : forall f jac n G JG, (forall t, computes (f t) n n (G t)) -> (forall t, computes_mat (jac t) n n n (JG t)) ->
  forall iters tol t x g h, is_col x n g ->
  (forall z gz A, is_col z n gz -> ie_jac jac (t + h) h z = Ret A -> solver_ok A n (fun i j => JG (t + h) gz i j * h - delta i j)) ->
  forall z, ie_step iters tol f jac t x h = Ret z ->
  exists gz, is_col z n gz /\
    enorm n (fun i => g i + G (t + h) gz i * h - gz i) <= frob n n (fun i j => JG (t + h) gz i j * h - delta i j) * tol.
Proof.
  intros f jac n G JG HG HJ iters tol t x g h Hx HS z E.
  destruct (ie_step_spec f jac n G JG HG HJ iters tol t x g h Hx HS z E) as (gz & B & Hz & Hlt & HB). exists gz. split; [exact Hz|].
  rewrite (enorm_ext n _ (mv n (fun i j => JG (t + h) gz i j * h - delta i j) B)) by (intros i Hi; symmetry; exact (HB i Hi)).
  apply Rle_trans with (1 := mv_bound n n _ _). apply Rmult_le_compat_l; [apply sqrt_pos|lra].
Qed.
Print Assumptions C49_step.

(** Linear systems x' = M x + c: the step always succeeds and returns the solution s of
    s = x + h (M s + c), or x itself if x is already that close to it. *)
Theorem C49_linear : forall f jac n G JG, (forall t, computes (f t) n n (G t)) -> (forall t, computes_mat (jac t) n n n (JG t)) ->
  forall iters tol t x g h M c s, is_col x n g -> 0 < tol -> (2 <= iters)%nat ->
  (forall t z i j, JG t z i j = M i j) -> (forall t z i, (i < n)%nat -> G t z i = mv n M z i + c i) ->
  (forall A, is_mat A n n (fun i j => M i j * h - delta i j) -> solver_ok A n (fun i j => M i j * h - delta i j)) ->
  (forall i, (i < n)%nat -> s i = g i + h * (mv n M s i + c i)) ->
  exists z gz, ie_step iters tol f jac t x h = Ret z /\ is_col z n gz /\
    ((forall i, (i < n)%nat -> gz i = s i) \/ (z = x /\ enorm n (fun i => g i - s i) < tol)).
Proof. exact ie_step_linear. Qed.
Print Assumptions C49_linear.
(** x' = A x + (1,1) with A = ((3,1),(1,2)) and step 2: every hypothesis holds. *)
Example C49_linear_example : forall t, exists z gz, ie_step 10 (1 / 1000) e2_ode e2_odejac t (mkMatrix 2 1 [1; -3]) 2 = Ret z /\ is_col z 2 gz /\
  gz 0%nat = -1 /\ gz 1%nat = 1.
Proof.
  intros t. destruct (C49_linear e2_ode e2_odejac 2 _ _ e2_ode_computes e2_odejac_computes 10 (1/1000) t _ _ 2 e2_A (v2 1 1) (v2 (-1) 1) (is_v2 1 (-3)) ltac:(lra) ltac:(lia)) as (z & gz & E & Hz & H); auto.
  - exact e2_ode_solver.
  - intros i Hi. rewrite mv_2. destruct i as [|[|i]]; try lia; cbv [e2_A m2 v2 nth Nat.mul Nat.add]; lra.
  - exists z, gz. split; [exact E|]. split; [exact Hz|]. destruct H as [H|(_ & H)]; [split; [apply (H 0%nat)|apply (H 1%nat)]; lia|exfalso].
    revert H. apply Rle_not_lt. unfold enorm. rewrite sumsq_2. cbv [v2 nth]. rewrite <- (sqrt_Rsqr (1 / 1000)) by lra. apply sqrt_le_1_alt. unfold Rsqr. lra.
Qed.

(** A whole solution of x' = lam x + c, lam <= 0, with the iteration limit and tolerance of the
    crate: it returns, on the grid t0, t0 + h, .., t1, and each state is the exact implicit Euler
    step from its predecessor up to the tolerance. *)
Theorem C49_solve : forall f jac lam c, (forall t, computes (f t) 1 1 (fun z _ => lam * z 0%nat + c)) ->
  (forall t, computes_mat (jac t) 1 1 1 (fun _ _ _ => lam)) -> lam <= 0 ->
  forall h t0 t1 init a, 0 < h -> t0 <= t1 -> is_col init 1 (fun _ => a) ->
  exists N tv xv x, INR N - 1 < (t1 - t0) / h <= INR N /\
    fixed_solve h (ie_step ie_iters ie_tol f jac) t0 t1 init = Ret (tv, xv) /\ length tv = S N /\ length xv = S N /\
    (forall i, (i <= N)%nat -> nth i tv 0 = grid t0 t1 h i) /\
    (forall i, (i <= N)%nat -> is_col (nth i xv (vzero 0)) 1 (fun _ => x i)) /\ x 0%nat = a /\
    forall i, (i < N)%nat -> let w := nth (S i) tv 0 - nth i tv 0 in let s := (x i + w * c) / (1 - w * lam) in
      x (S i) = s \/ (x (S i) = x i /\ Rabs (x i - s) < 1 / 100000000).
Proof.
  intros f jac lam c Hf HJ Hl h t0 t1 init a Hh Ht Hi.
  assert (Etol : (ie_tol : R) = 1 / 100000000) by exact (lit_R 1 100000000). assert (Hpos : 0 < (ie_tol : R)) by (rewrite Etol; lra).
  destruct (C41_fixed_grid h (ie_step ie_iters ie_tol f jac) t0 t1 init (fun v => exists b, is_col v 1 (fun _ => b)) Hh Ht (ex_intro _ a Hi)) as (N & tv & xv & HN & E & L1 & L2 & Hg & _ & _ & Hinc & H0 & HI & Hfol).
  - intros t x w _ Hw (b & Hb). destruct (ie_step_scalar f jac lam c Hf HJ Hl ie_iters ie_tol t x b w Hb Hpos ltac:(unfold ie_iters; lia) ltac:(lra)) as (z & b' & Ez & Hz & _). exists z. split; [exact Ez|exists b'; exact Hz].
  - exists N, tv, xv, (fun i => match vvget (nth i xv (vzero 0)) 0 with Ret y => y | Panic => 0 end). repeat (split; [assumption|]).
    assert (Hc : forall i, (i <= N)%nat -> is_col (nth i xv (vzero 0)) 1 (fun _ => match vvget (nth i xv (vzero 0)) 0 with Ret y => y | Panic => 0 end)).
    { intros i Hle. destruct (HI i Hle) as (b & Hb). rewrite (col_get _ 1 _ 0 Hb) by lia. exact Hb. }
    split; [exact Hc|]. split; [rewrite H0, (col_get _ 1 _ 0 Hi) by lia; reflexivity|].
    intros i Hlt w s. pose proof (Hinc i ltac:(lia)) as Hw. pose proof (Hfol i ltac:(lia)) as Hs. fold w in Hs.
    destruct (ie_step_scalar f jac lam c Hf HJ Hl ie_iters ie_tol (nth i tv 0) _ _ w (Hc i ltac:(lia)) Hpos ltac:(unfold ie_iters; lia) ltac:(unfold w; lra)) as (z & b' & Ez & Hz & Hor).
    rewrite Ez in Hs. injection Hs as <-. rewrite (col_get _ 1 _ 0 Hz) by lia. rewrite <- Etol. exact Hor.
Qed.
Print Assumptions C49_solve.

(** Unconditional stability for x' = lam x: no step size makes the numerical solution grow. *)
Theorem C49_stable : forall f jac lam, (forall t, computes (f t) 1 1 (fun z _ => lam * z 0%nat + 0)) ->
  (forall t, computes_mat (jac t) 1 1 1 (fun _ _ _ => lam)) -> lam <= 0 ->
  forall t x a h, is_col x 1 (fun _ => a) -> 0 <= h ->
  exists z b, ie_step ie_iters ie_tol f jac t x h = Ret z /\ is_col z 1 (fun _ => b) /\ Rabs b <= Rabs a.
Proof.
  intros f jac lam Hf HJ Hl t x a h Hx Hh. assert (Etol : (ie_tol : R) = 1 / 100000000) by exact (lit_R 1 100000000). assert (Hpos : 0 < (ie_tol : R)) by (rewrite Etol; lra).
  destruct (ie_step_scalar f jac lam 0 Hf HJ Hl ie_iters ie_tol t x a h Hx Hpos ltac:(unfold ie_iters; lia) Hh) as (z & b & E & Hz & Hor).
  exists z, b. split; [exact E|]. split; [exact Hz|]. destruct Hor as [->|(-> & _)]; [apply implicit_decay; assumption|lra].
Qed.
Print Assumptions C49_stable.
Example C49_example : (forall t : R, computes ((fun _ x => Ret (vmul_scalar x (-2))) t) 1 1 (fun z _ => -2 * z 0%nat + 0)).
Proof.
  intros t x g H. eexists. split; [reflexivity|]. generalize (vmul_scalar_col x 1 g (-2) H). apply is_mat_ext.
  intros i j Hi _. replace i with 0%nat by lia. cbn [mul R_ops]. ring.
Qed.

(** Not every solvable problem: x' = x^2 + 1 with step 1 from 0 panics. *)
Theorem C49_nonlinear_refuted : (forall t, computes (tan_rhs t) 1 1 (fun g _ => g 0%nat * g 0%nat + 1)) /\
  (forall t, computes_mat (tan_jac t) 1 1 1 (fun g _ _ => 2 * g 0%nat)) /\
  forall x, is_col x 1 (fun _ => 0) -> ie_step ie_iters ie_tol tan_rhs tan_jac 0 x 1 = Panic.
Proof.
  split; [exact tan_computes|]. split; [exact tan_jac_computes|]. intros x Hx. unfold ie_step. cbv zeta. cbn [add R_ops].
  replace (0 + 1) with 1 by ring. rewrite (tan_never ie_tol) with (g0 := fun _ => 0); [reflexivity| |exact Hx|exact Hx].
  assert (Etol : (ie_tol : R) = 1 / 100000000) by exact (lit_R 1 100000000). rewrite Etol. lra.
Qed.
Print Assumptions C49_nonlinear_refuted.

(** * C50 *)

Theorem C50_new : forall (sigma : R) iters,
  (0 < sigma <= 1 /\ (0 < iters)%nat -> gradient_new sigma iters = Ret (sigma, iters)) /\
  (~ (0 < sigma <= 1 /\ (0 < iters)%nat) -> gradient_new sigma iters = Panic).
Proof.
  intros sigma iters. unfold gradient_new. cbn [leb ltb R_ops zero one].
  destruct (R_leb sigma 1) eqn:E1; destruct (R_ltb 0 sigma) eqn:E2; cbn [andb];
    [destruct (Nat.ltb_spec 0 iters)| | |];
    rewrite ?R_leb_true, ?R_leb_false, ?R_ltb_true, ?R_ltb_false in *; (split; [intros (H1 & H2)|intros Hn]);
    try reflexivity; try lra; try lia; exfalso; apply Hn; split; lra || lia.
Qed.
Print Assumptions C50_new.

(** A complete run, any function and any reported gradient: no panic, and if the line searches
    end, the result is reached by steps X_(j+1) = X_j - 2^(-a_j) gradient(X_j), where 2^(-a_j) is the
    first of 1, 1/2, 1/4, .. with f(X_(j+1)) <= f(X_j) - sigma 2^(-a_j) |gradient(X_j)|^2. *)
Theorem C50_run : forall func jac n m p F J, computes func n m F -> computes_mat jac n p n J -> (0 < m)%nat -> (0 < p)%nat -> (0 < n)%nat ->
  forall fuel sigma iters x0 g0, is_col x0 n g0 ->
  exists r, grad_min iters fuel sigma func jac x0 = Ret r /\ forall x, r = Some x ->
    exists X a, is_col x n (X iters) /\ descent_run n (fun g => F g 0%nat) (fun g => J g 0%nat) sigma g0 iters X a.
Proof.
  intros func jac n m p F J HF HJ Hm Hp Hn fuel sigma iters x0 g0 Hx.
  destruct (grad_min_no_panic func jac n m p F J HF HJ Hm Hp Hn fuel sigma iters x0 g0 Hx) as (r & E). exists r. split; [exact E|]. intros x ->.
  destruct (grad_min_spec func jac n m p F J HF HJ Hm Hp Hn fuel sigma iters x0 g0 Hx _ E) as (X & a & H0 & Hc & Hs).
  exists X, a. split; [exact Hc|]. split; [exact H0|]. intros j Hj. destruct (Hs j Hj) as (_ & H). exact H.
Qed.
Print Assumptions C50_run.

(** The value never increases. *)
Theorem C50_descent : forall func jac n m p F J, computes func n m F -> computes_mat jac n p n J -> (0 < m)%nat -> (0 < p)%nat -> (0 < n)%nat ->
  forall fuel sigma iters x0 g0 x, 0 <= sigma -> is_col x0 n g0 -> grad_min iters fuel sigma func jac x0 = Ret (Some x) ->
  exists g, is_col x n g /\ F g 0%nat <= F g0 0%nat.
Proof.
  intros func jac n m p F J HF HJ Hm Hp Hn fuel sigma iters x0 g0 x Hs Hx E.
  destruct (C50_run func jac n m p F J HF HJ Hm Hp Hn fuel sigma iters x0 g0 Hx) as (r & E' & Hr). rewrite E in E'. injection E' as <-.
  destruct (Hr x eq_refl) as (X & a & Hc & H0 & Hrun). exists (X iters). split; [exact Hc|]. rewrite <- H0.
  assert (Hle : forall k, (k <= iters)%nat -> F (X k) 0%nat <= F (X 0%nat) 0%nat); [|apply Hle; lia].
  induction k as [|k IH]; intros Hk; [lra|]. destruct (Hrun k ltac:(lia)) as (HX & Ha & _). unfold armijo_ok in Ha. rewrite <- HX in Ha.
  pose proof (IH ltac:(lia)). pose proof (sumsq_nonneg n (J (X k) 0%nat)) as H2. pose proof (Rinv_0_lt_compat _ (pow_lt 2 (a k) ltac:(lra))) as H1.
  pose proof (Rmult_le_pos _ _ Hs (Rmult_le_pos _ _ (Rlt_le _ _ H1) H2)). lra.
Qed.
Print Assumptions C50_descent.

(** With the true gradient and sigma < 1 every line search ends. *)
Theorem C50_terminates : forall func jac n m p F J, computes func n m F -> computes_mat jac n p n J -> (0 < m)%nat -> (0 < p)%nat -> (0 < n)%nat ->
  forall sigma, sigma < 1 ->
  (forall g, derivable_pt_lim (fun t => F (fun i => g i - t * J g 0%nat i) 0%nat) 0 (- sumsq n (J g 0%nat))) ->
  forall iters x0 g0, is_col x0 n g0 ->
  exists fuel0 x, forall fuel, (fuel0 <= fuel)%nat -> grad_min iters fuel sigma func jac x0 = Ret (Some x).
Proof. exact grad_min_terminates. Qed.
Print Assumptions C50_terminates.

(** Linear convergence: if f is L-smooth along its gradient and |gradient|^2 >= 2 mu (f - low), the gap
    f - low shrinks by at least the factor 1 - 2 mu sigma min(1, (1 - sigma)/L) < 1 per iteration. *)
Theorem C50_rate : forall func jac n m p F J, computes func n m F -> computes_mat jac n p n J -> (0 < m)%nat -> (0 < p)%nat -> (0 < n)%nat ->
  forall L mu sigma low, 0 < sigma < 1 -> 0 < mu <= L ->
  (forall g t, 0 <= t <= 1 -> F (fun i => g i - t * J g 0%nat i) 0%nat <= F g 0%nat - t * sumsq n (J g 0%nat) + L / 2 * (t * t) * sumsq n (J g 0%nat)) ->
  (forall g, 2 * mu * (F g 0%nat - low) <= sumsq n (J g 0%nat)) ->
  forall fuel iters x0 g0 x, is_col x0 n g0 -> grad_min iters fuel sigma func jac x0 = Ret (Some x) ->
  let q := 1 - 2 * mu * sigma * Rmin 1 ((1 - sigma) / L) in
  q < 1 /\ exists g, is_col x n g /\ F g 0%nat - low <= q ^ iters * (F g0 0%nat - low).
Proof.
  intros func jac n m p F J HF HJ Hm Hp Hn L mu sigma low Hs Hmu H1 H2 fuel iters x0 g0 x Hx E q.
  split; [exact (rate_lt_1 L mu sigma Hs Hmu)|].
  destruct (C50_run func jac n m p F J HF HJ Hm Hp Hn fuel sigma iters x0 g0 Hx) as (r & E' & Hr). rewrite E in E'. injection E' as <-.
  destruct (Hr x eq_refl) as (X & a & Hc & H0 & Hrun). exists (X iters). split; [exact Hc|]. rewrite <- H0.
  exact (descent_rate n (fun g => F g 0%nat) (fun g => J g 0%nat) L mu sigma low Hs Hmu H1 H2 X a iters Hrun).
Qed.
Print Assumptions C50_rate.
(** x^2: smooth with L = 2, and mu = 2. *)
Example C50_example : computes sq_func 1 1 (fun g _ => g 0%nat * g 0%nat) /\ computes_mat sq_jac 1 1 1 (fun g _ _ => 2 * g 0%nat) /\
  (forall (g : nat -> R) t, 0 <= t <= 1 -> (g 0%nat - t * (2 * g 0%nat)) * (g 0%nat - t * (2 * g 0%nat)) <=
     g 0%nat * g 0%nat - t * sumsq 1 (fun _ => 2 * g 0%nat) + 2 / 2 * (t * t) * sumsq 1 (fun _ => 2 * g 0%nat)) /\
  (forall g : nat -> R, 2 * 2 * (g 0%nat * g 0%nat - 0) <= sumsq 1 (fun _ => 2 * g 0%nat)).
Proof. split; [exact sq_computes|]. split; [exact sq_jac_computes|]. split; intros; rewrite ?sumsq_1; lra. Qed.
(** The objective of 3x + y = 5, x + 2y = 5: linear convergence of the value to the minimum 0, with q = 7/8. *)
Example C50_rate_example : forall fuel iters x, grad_min iters fuel (1 / 2) e2_obj e2_grad (mkMatrix 2 1 [0; 0]) = Ret (Some x) ->
  exists g, is_col x 2 g /\ 1 / 2 * dot 2 g (mv 2 e2_A g) - dot 2 e2_b g + 15 / 2 <= (7 / 8) ^ iters * (15 / 2).
Proof.
  intros fuel iters x E.
  destruct (C50_rate _ _ 2 1 1 _ _ e2_obj_computes e2_grad_computes ltac:(lia) ltac:(lia) ltac:(lia) 4 1 (1/2) 0 ltac:(lra) ltac:(lra) e2_smooth e2_pl
    fuel iters _ _ x (is_v2 0 0) E) as (_ & g & Hg & H). exists g. split; [exact Hg|].
  replace (1 - 2 * 1 * (1 / 2) * Rmin 1 ((1 - 1 / 2) / 4)) with (7 / 8) in H by (rewrite Rmin_right; lra).
  revert H. rewrite !dot_2, !mv_2. cbv [v2 e2_b e2_A m2 nth Nat.mul Nat.add]. lra.
Qed.
(** The search ends: the objective is differentiable along its gradient. *)
Example C50_terminates_example : forall iters, exists fuel0 x, forall fuel, (fuel0 <= fuel)%nat ->
  grad_min iters fuel (1 / 2) e2_obj e2_grad (mkMatrix 2 1 [0; 0]) = Ret (Some x).
Proof.
  intros iters. apply (C50_terminates _ _ 2 1 1 _ _ e2_obj_computes e2_grad_computes ltac:(lia) ltac:(lia) ltac:(lia) (1/2) ltac:(lra) e2_deriv_grad iters _ _ (is_v2 0 0)).
Qed.

(** Without convexity: for an L-smooth objective that is bounded below, stopping at one of the iterations gives a point with
    |gradient|^2 <= (f(start) - low) / (c iters), where c = sigma min(1, (1 - sigma)/L) > 0. *)
Theorem C50_stationary : forall func jac n m p F J, computes func n m F -> computes_mat jac n p n J -> (0 < m)%nat -> (0 < p)%nat -> (0 < n)%nat ->
  forall L sigma low, 0 < sigma < 1 -> 0 < L ->
  (forall g t, 0 <= t <= 1 -> F (fun i => g i - t * J g 0%nat i) 0%nat <= F g 0%nat - t * sumsq n (J g 0%nat) + L / 2 * (t * t) * sumsq n (J g 0%nat)) ->
  (forall g, low <= F g 0%nat) ->
  forall fuel iters x0 g0 x, is_col x0 n g0 -> grad_min iters fuel sigma func jac x0 = Ret (Some x) -> (0 < iters)%nat ->
  exists k y g, (k < iters)%nat /\ grad_min k fuel sigma func jac x0 = Ret (Some y) /\ is_col y n g /\
    sigma * Rmin 1 ((1 - sigma) / L) * INR iters * sumsq n (J g 0%nat) <= F g0 0%nat - low.
Proof.
  intros func jac n m p F J HF HJ Hm Hp Hn L sigma low Hs HL Hsm Hlow fuel iters x0 g0 x Hx E HN.
  exact (stationary func jac n m p F J HF HJ Hm Hp Hn L sigma Hs HL Hsm fuel iters x0 g0 x low Hx E HN Hlow).
Qed.
Print Assumptions C50_stationary.
(** Convex objectives: f(result) - min f <= R2 / (c iters), where R2 bounds the squared distance to the minimiser of the points
    that are not worse than the start. *)
Theorem C50_convex : forall func jac n m p F J, computes func n m F -> computes_mat jac n p n J -> (0 < m)%nat -> (0 < p)%nat -> (0 < n)%nat ->
  forall L sigma (xs : nat -> R) R2, 0 < sigma < 1 -> 0 < L ->
  (forall g t, 0 <= t <= 1 -> F (fun i => g i - t * J g 0%nat i) 0%nat <= F g 0%nat - t * sumsq n (J g 0%nat) + L / 2 * (t * t) * sumsq n (J g 0%nat)) ->
  (forall g, F xs 0%nat <= F g 0%nat) ->
  (forall g, F g 0%nat + dot n (J g 0%nat) (fun i => xs i - g i) <= F xs 0%nat) ->
  forall fuel iters x0 g0 x, is_col x0 n g0 ->
  (forall g, F g 0%nat <= F g0 0%nat -> sumsq n (fun i => g i - xs i) <= R2) ->
  grad_min iters fuel sigma func jac x0 = Ret (Some x) ->
  exists g, is_col x n g /\ sigma * Rmin 1 ((1 - sigma) / L) * INR iters * (F g 0%nat - F xs 0%nat) <= R2.
Proof.
  intros func jac n m p F J HF HJ Hm Hp Hn L sigma xs R2 Hs HL Hsm Hmin Hcv fuel iters x0 g0 x Hx Hlev E.
  exact (sublinear func jac n m p F J HF HJ Hm Hp Hn L sigma Hs HL Hsm fuel iters x0 g0 x xs R2 Hx E Hmin (fun g => dot_flip n _ _ _ _ _ (Hcv g)) Hlev).
Qed.
Print Assumptions C50_convex.
(** sqrt(1 + x^2) from x = 3 with sigma = 1/2: neither bounded curvature from below nor a linear rate is needed. *)
Example C50_convex_example : forall fuel iters x, grad_min iters fuel (1 / 2) hub_func hub_jac (mkMatrix 1 1 [3]) = Ret (Some x) ->
  exists g, is_col x 1 g /\ 1 / 2 * Rmin 1 ((1 - 1 / 2) / 1) * INR iters * (sqrt (1 + g 0%nat * g 0%nat) - sqrt (1 + 0 * 0)) <= 9.
Proof.
  intros fuel iters x E.
  refine (C50_convex _ _ 1 1 1 _ _ hub_computes hub_jac_computes ltac:(lia) ltac:(lia) ltac:(lia) 1 (1 / 2) (fun _ => 0) 9 ltac:(lra) ltac:(lra) _ _ _
    fuel iters _ (fun _ => 3) x (tan_col 3) _ E); cbv beta.
  - intros g t Ht. rewrite sumsq_1. exact (hub_smooth (g 0%nat) t Ht).
  - intro g. rewrite Rmult_0_l, Rplus_0_r, sqrt_1. apply hub_ge.
  - intro g. rewrite dot_1, Rmult_0_l, Rplus_0_r, sqrt_1. pose proof (hub_convex (g 0%nat)). lra.
  - intros g Hg. rewrite sumsq_1. pose proof (hub_level _ _ Hg). lra.
Qed.
Example C50_stationary_example : forall fuel iters x, grad_min iters fuel (1 / 2) hub_func hub_jac (mkMatrix 1 1 [3]) = Ret (Some x) -> (0 < iters)%nat ->
  exists k y g, (k < iters)%nat /\ grad_min k fuel (1 / 2) hub_func hub_jac (mkMatrix 1 1 [3]) = Ret (Some y) /\ is_col y 1 g /\
    1 / 2 * Rmin 1 ((1 - 1 / 2) / 1) * INR iters * sumsq 1 (fun _ => g 0%nat / sqrt (1 + g 0%nat * g 0%nat)) <= sqrt (1 + 3 * 3) - 1.
Proof.
  intros fuel iters x E HN.
  refine (C50_stationary _ _ 1 1 1 _ _ hub_computes hub_jac_computes ltac:(lia) ltac:(lia) ltac:(lia) 1 (1 / 2) 1 ltac:(lra) ltac:(lra) _ _
    fuel iters _ (fun _ => 3) x (tan_col 3) E HN); cbv beta.
  - intros g t Ht. rewrite sumsq_1. exact (hub_smooth (g 0%nat) t Ht).
  - intro g. apply hub_ge.
Qed.

(** sigma = 1 is accepted by [new], but on x^2 no amount of fuel ends the first line search. *)
Theorem C50_sigma_one_refuted : gradient_new (1 : R) 1 = Ret (1, 1%nat) /\
  forall iters x g, is_col x 1 g -> g 0%nat <> 0 -> forall fuel, grad_min (S iters) fuel 1 sq_func sq_jac x = Ret None.
Proof. split; [apply C50_new; split; [lra|lia]|]. intros iters x g Hx Hg fuel. exact (grad_min_sigma_1 fuel iters x g Hx Hg). Qed.
Print Assumptions C50_sigma_one_refuted.

(** * C51 *)

(** A complete run: the direction D_j is the solution of Hessian d = -gradient if it satisfies
    gradient . d <= -rho |gradient|^2, otherwise the negative gradient; the step is the first of 1, 1/2, 1/4, .. with
    f(X_j + a D_j) <= f(X_j) + sigma a gradient . D_j. *)
Theorem C51_run : forall func jac hess n m p F J Hs, computes func n m F -> computes_mat jac n p n J -> computes_mat hess n n n Hs ->
  (0 < m)%nat -> (0 < p)%nat -> (0 < n)%nat -> forall fuel sigma rho iters x0 g0, is_col x0 n g0 ->
  exists r, newton_min iters fuel sigma rho func jac hess x0 = Ret r /\ forall x, r = Some x ->
    exists X D a, X 0%nat = g0 /\ is_col x n (X iters) /\ forall k, (k < iters)%nat ->
      newton_direction hess n (fun g => J g 0%nat) rho (X k) (D k) /\
      X (S k) = (fun i => X k i + / 2 ^ a k * D k i) /\
      armijo_along n (fun g => F g 0%nat) (fun g => J g 0%nat) sigma (X k) (D k) (a k) /\
      forall b, (b < a k)%nat -> ~ armijo_along n (fun g => F g 0%nat) (fun g => J g 0%nat) sigma (X k) (D k) b.
Proof.
  intros func jac hess n m p F J Hs HF HJ HH Hm Hp Hn fuel sigma rho iters x0 g0 Hx.
  destruct (newton_min_spec func jac hess n m p F J Hs HF HJ HH Hm Hp Hn fuel sigma rho iters x0 g0 Hx) as (r & E & Hr).
  exists r. split; [exact E|]. intros x ->. destruct Hr as (X & D & a & H0 & Hc & Hk). exists X, D, a. split; [exact H0|]. split; [exact Hc|].
  intros k Hlt. destruct (Hk k Hlt) as (H1 & _ & H2 & H3 & H4). auto.
Qed.
Print Assumptions C51_run.

(** For sigma >= 0 and rho >= 0 the value never increases. *)
Theorem C51_descent : forall func jac hess n m p F J Hs, computes func n m F -> computes_mat jac n p n J -> computes_mat hess n n n Hs ->
  (0 < m)%nat -> (0 < p)%nat -> (0 < n)%nat -> forall fuel sigma rho iters x0 g0 x, 0 <= sigma -> 0 <= rho -> is_col x0 n g0 ->
  newton_min iters fuel sigma rho func jac hess x0 = Ret (Some x) ->
  exists g, is_col x n g /\ F g 0%nat <= F g0 0%nat.
Proof.
  intros func jac hess n m p F J Hs HF HJ HH Hm Hp Hn fuel sigma rho iters x0 g0 x Hsig Hrho Hx E.
  destruct (C51_run func jac hess n m p F J Hs HF HJ HH Hm Hp Hn fuel sigma rho iters x0 g0 Hx) as (r & E' & Hr). rewrite E in E'. injection E' as <-.
  destruct (Hr x eq_refl) as (X & D & a & H0 & Hc & Hrun). exists (X iters). split; [exact Hc|]. rewrite <- H0.
  assert (Hle : forall k, (k <= iters)%nat -> F (X k) 0%nat <= F (X 0%nat) 0%nat); [|apply Hle; lia].
  induction k as [|k IH]; intros Hk; [lra|]. destruct (Hrun k ltac:(lia)) as (Hd & HX & Ha & _). unfold armijo_along in Ha. rewrite <- HX in Ha.
  pose proof (IH ltac:(lia)) as H1. pose proof (direction_descent hess n J rho (X k) (D k) Hrho Hd) as H2.
  pose proof (Rinv_0_lt_compat _ (pow_lt 2 (a k) ltac:(lra))) as H3.
  pose proof (Rmult_le_pos _ _ (Rmult_le_pos _ _ Hsig (Rlt_le _ _ H3)) (Ropp_0_ge_le_contravar _ (Rle_ge _ _ H2) : 0 <= - dot n (J (X k) 0%nat) (D k))). lra.
Qed.
Print Assumptions C51_descent.

(** Strictly convex quadratics 1/2 x.Ax - b.x + c: exact after the first iteration. *)
Theorem C51_quadratic : forall func jac hess n m p F J Hs, computes func n m F -> computes_mat jac n p n J -> computes_mat hess n n n Hs ->
  (0 < m)%nat -> (0 < p)%nat -> (0 < n)%nat ->
  (forall x g A, is_col x n g -> hess x = Ret A -> solver_ok A n (Hs g)) ->
  forall A b s c sigma rho,
  (forall g, F g 0%nat = 1 / 2 * dot n g (mv n A g) - dot n b g + c) ->
  (forall g i, (i < n)%nat -> J g 0%nat i = mv n A g i - b i) -> (forall g i j, Hs g i j = A i j) ->
  symmetric n A -> sigma <= 1 / 2 ->
  (forall y, rho * sumsq n (mv n A y) <= dot n y (mv n A y)) -> (forall y, 0 <= dot n y (mv n A y)) ->
  (forall i, (i < n)%nat -> mv n A s i = b i) ->
  forall fuel iters x g, is_col x n g ->
  exists w, newton_min (S iters) fuel sigma rho func jac hess x = Ret (Some w) /\ is_col w n s.
Proof. exact newton_quad_exact. Qed.
Print Assumptions C51_quadratic.

(** Near a minimum: let |x - x0| <= r contain every point that matters, let the Hessian there be at least mu, and let the second-order Taylor
    expansions of the objective and of its gradient have the remainders K/6 |d|^3 and K/2 |d|^2. If the gradient at the start point is small
    enough then every step is a full Newton step, and the gradient vanishes quadratically: |grad(x)| K/(2 mu^2) <= (|grad(x0)| K/(2 mu^2))^(2^iters). *)
Theorem C51_local : forall func jac hess n m p F J Hs, computes func n m F -> computes_mat jac n p n J -> computes_mat hess n n n Hs ->
  (0 < m)%nat -> (0 < p)%nat -> (0 < n)%nat -> forall g0 r mu M K sigma rho, 0 < mu -> 0 < K -> rho * M <= 1 -> 0 <= rho ->
  (forall x g A, is_col x n g -> enorm n (fun i => g i - g0 i) <= r -> hess x = Ret A -> solver_ok A n (Hs g)) ->
  (forall g v, enorm n (fun i => g i - g0 i) <= r -> mu * sumsq n v <= dot n v (mv n (Hs g) v)) ->
  (forall g v, enorm n (fun i => g i - g0 i) <= r -> sumsq n (mv n (Hs g) v) <= M * dot n v (mv n (Hs g) v)) ->
  (forall g d, enorm n (fun i => g i - g0 i) <= r -> enorm n (fun i => g i + d i - g0 i) <= r ->
    F (fun i => g i + d i) 0%nat <= F g 0%nat + dot n (J g 0%nat) d + 1 / 2 * dot n d (mv n (Hs g) d) + K / 6 * enorm n d ^ 3) ->
  (forall g d, enorm n (fun i => g i - g0 i) <= r -> enorm n (fun i => g i + d i - g0 i) <= r ->
    enorm n (fun i => J (fun i => g i + d i) 0%nat i - J g 0%nat i - mv n (Hs g) d i) <= K / 2 * enorm n d ^ 2) ->
  2 * enorm n (J g0 0%nat) <= mu * r -> K * enorm n (J g0 0%nat) <= mu ^ 2 -> K * enorm n (J g0 0%nat) <= mu ^ 2 * (3 - 6 * sigma) ->
  forall fuel iters x0, is_col x0 n g0 ->
  exists x g, newton_min iters fuel sigma rho func jac hess x0 = Ret (Some x) /\ is_col x n g /\ enorm n (fun i => g i - g0 i) <= r /\
    K / (2 * mu ^ 2) * enorm n (J g 0%nat) <= (K / (2 * mu ^ 2) * enorm n (J g0 0%nat)) ^ (2 ^ iters).
Proof.
  intros func jac hess n m p F J Hs HF HJ HH Hm Hp Hn g0 r mu M K sigma rho Hmu HK HM Hr H1 H2 H3 H4 H5 Hr1 Hr2 Hr3 fuel iters x0 Hx.
  exact (newton_local func jac hess n m p F J Hs HF HJ HH Hm Hp Hn g0 r mu M K sigma rho Hmu HK HM Hr H1 H2 H3 H4 H5 Hr1 Hr2 Hr3 fuel iters x0 Hx).
Qed.
Print Assumptions C51_local.
Example C51_local_example : forall fuel iters, exists x g, newton_min iters fuel (1 / 4) (1 / 2) qx_func qx_jac qx_hess (mkMatrix 1 1 [1 / 4]) = Ret (Some x) /\
  is_col x 1 g /\ Rabs (g 0%nat + g 0%nat ^ 3 / 3) <= (49 / 192) ^ (2 ^ iters).
Proof.
  intros fuel iters.
  destruct (C51_local qx_func qx_jac qx_hess 1 1 1 _ _ _ qx_f qx_j qx_h ltac:(lia) ltac:(lia) ltac:(lia) (fun _ => 1 / 4) (3 / 4) 1 2 2 (1 / 4) (1 / 2))
    with (fuel := fuel) (iters := iters) (x0 := mkMatrix 1 1 [1 / 4]) as (x & g & E & Hc & _ & B); try lra;
    try (intros g d; rewrite !enorm_1; intros G1 G2; cbn beta in *; assert (A1 : -1 <= g 0%nat <= 1) by (revert G1; unfold Rabs; destruct Rcase_abs; lra);
      assert (A2 : -1 <= g 0%nat + d 0%nat <= 1) by (revert G2; unfold Rabs; destruct Rcase_abs; lra); destruct (qx_taylor _ _ A1 A2) as (T1 & T2); rewrite ?dot_1, !mv_1; assumption);
    try (rewrite enorm_1; cbn beta; rewrite Rabs_pos_eq; lra).
  - intros x g A Hx _ EA. destruct (qx_h x g Hx) as (A' & E' & HA'). rewrite EA in E'. injection E' as <-. apply solver_ok_1; [exact HA'|]. nra.
  - intros g v _. rewrite sumsq_1, dot_1, mv_1. pose proof (Rle_0_sqr (g 0%nat * v 0%nat)). unfold Rsqr in *. cbn [pow]. lra.
  - intros g v G. rewrite enorm_1 in G. assert (g 0%nat ^ 2 <= 1) by (revert G; cbn beta; unfold Rabs; destruct Rcase_abs; intros; nra).
    rewrite sumsq_1, dot_1, mv_1. set (h := 1 + g 0%nat ^ 2). set (y := v 0%nat). assert (0 <= h * (y * y) * (2 - h)); [|lra].
    apply Rmult_le_pos; [apply Rmult_le_pos; [unfold h; nra|nra]|unfold h; lra].
  - apply tan_col.
  - exists x, g. split; [exact E|]. split; [exact Hc|]. rewrite !enorm_1 in B. cbn beta in B. rewrite (Rabs_pos_eq (1 / 4 + (1 / 4) ^ 3 / 3)) in B by lra.
    replace (2 / (2 * 1 ^ 2)) with 1 in B by field. rewrite !Rmult_1_l in B. replace (1 / 4 + (1 / 4) ^ 3 / 3) with (49 / 192) in B by field. exact B.
Qed.

Theorem C51_terminates : forall func jac hess n m p F J Hs, computes func n m F -> computes_mat jac n p n J -> computes_mat hess n n n Hs ->
  (0 < m)%nat -> (0 < p)%nat -> (0 < n)%nat ->
  (forall x g A, is_col x n g -> hess x = Ret A -> solver_ok A n (Hs g)) ->
  forall sigma rho, sigma < 1 -> 0 < rho ->
  (forall g D, derivable_pt_lim (fun t => F (fun i => g i + t * D i) 0%nat) 0 (dot n (J g 0%nat) D)) ->
  forall iters x0 g0, is_col x0 n g0 ->
  exists fuel0 x, forall fuel, (fuel0 <= fuel)%nat -> newton_min iters fuel sigma rho func jac hess x0 = Ret (Some x).
Proof. exact newton_min_terminates. Qed.
Print Assumptions C51_terminates.

(** A negative sigma is not rejected, and the value may then increase: x^2 with the (wrong) Hessian 1/2, from 1 to -3. *)
Theorem C51_negative_sigma_refuted : forall P : POps Qc,
  (let! r := newton_min 1 0 (qz (-1)) (qz 1) qsq_func qsq_jac qsq_hess (mkMatrix 1 1 [qz 1]) in
   match r with Some v => Ret v | None => Panic end) = Ret (mkMatrix 1 1 [qz (-3)]) /\
  qsq_func (mkMatrix 1 1 [qz 1]) = Ret (mkMatrix 1 1 [qz 1]) /\ qsq_func (mkMatrix 1 1 [qz (-3)]) = Ret (mkMatrix 1 1 [qz 9]).
Proof. intros P. split; [exact (newton_wrong P)|]. split; qcompute. Qed.
Print Assumptions C51_negative_sigma_refuted.

(** A singular Hessian is not caught: on x^4, started at the minimum 0, the line search never ends. *)
Theorem C51_stuck_refuted : computes p4_func 1 1 (fun g _ => g 0%nat ^ 4) /\ computes_mat p4_jac 1 1 1 (fun g _ _ => 4 * g 0%nat ^ 3) /\
  computes_mat p4_hess 1 1 1 (fun g _ _ => 12 * g 0%nat ^ 2) /\
  forall iters sigma rho x, is_col x 1 (fun _ => 0) -> forall fuel, newton_min (S iters) fuel sigma rho p4_func p4_jac p4_hess x = Ret None.
Proof.
  split; [exact p4_computes|]. split; [exact p4_jac_computes|]. split; [exact p4_hess_computes|].
  intros iters sigma rho x Hx fuel. exact (newton_p4_stuck iters fuel sigma rho x Hx).
Qed.
Print Assumptions C51_stuck_refuted.
Example C51_example : symmetric 1 (fun _ _ => 2) /\ (forall y, 1 / 4 * sumsq 1 (mv 1 (fun _ _ => 2) y) <= dot 1 y (mv 1 (fun _ _ => 2) y)) /\
  (forall y, 0 <= dot 1 y (mv 1 (fun _ _ => 2) y)) /\ (forall A : matrix R, is_mat A 1 1 (fun _ _ => 2) -> solver_ok A 1 (fun _ _ => 2)).
Proof.
  split; [intros i j _ _; reflexivity|]. split; [intros y; rewrite sumsq_1, dot_1, mv_1; nra|]. split; [intros y; rewrite dot_1, mv_1; nra|].
  intros A HA. apply (solver_ok_1 A 2 HA). lra.
Qed.
(** The same objective: one Newton step reaches the minimum (1,2). *)
Example C51_quadratic_example : exists w, newton_min 1 0 (1 / 4) (1 / 5) e2_obj e2_grad e2_jac (mkMatrix 2 1 [10; -7]) = Ret (Some w) /\ is_col w 2 (v2 1 2).
Proof.
  apply (C51_quadratic _ _ _ 2 1 1 _ _ _ e2_obj_computes e2_grad_computes e2_jac_computes ltac:(lia) ltac:(lia) ltac:(lia)) with (A := e2_A) (b := e2_b) (c := 15 / 2) (g := v2 10 (-7)); auto.
  - intros x g A _ E. exact (e2_jac_solver x A E).
  - exact e2_symmetric.
  - lra.
  - exact e2_rho.
  - exact e2_nonneg.
  - exact e2_solution.
  - apply is_v2.
Qed.

(** * C52 *)

(** A complete run for func(x) = b - A x, jacobian A. *)
Theorem C52_run : forall n A jac func b eps iters x0 g0, computes_mat jac n n n (fun _ => A) -> (0 < n)%nat ->
  computes func n n (fun g i => b i - mv n A g i) -> is_col x0 n g0 ->
  exists w k X r D, cg_min iters eps func jac x0 = Ret w /\ (k <= iters)%nat /\ is_col w n (X k) /\
    cg_run n A g0 (fun i => b i - mv n A g0 i) k X r D /\
    (forall j, (j <= k)%nat -> forall i, (i < n)%nat -> r j i = b i - mv n A (X j) i) /\
    (forall j, (0 < j < k)%nat -> eps <= enorm n (r j)) /\ (k = iters \/ ((0 < k)%nat /\ enorm n (r k) < eps)).
Proof.
  intros n A jac func b eps iters x0 g0 HJ Hn HF Hx.
  destruct (cg_min_spec n A jac HJ Hn func eps iters x0 g0 _ HF Hx) as (w & k & X & r & D & E & Hk & Hw & Hrun & H1 & H2).
  exists w, k, X, r, D. repeat (split; [assumption|]). split; [exact (cg_residual n A g0 b k X r D Hrun)|]. auto.
Qed.
Print Assumptions C52_run.

(** Symmetric positive definite A: residuals are mutually orthogonal, directions mutually conjugate,
    for as long as no residual is zero, and that is for at most n steps; residual n is zero. *)
Theorem C52_orthogonal : forall n A, symmetric n A -> pos_def n A -> forall x0 b k X r D,
  cg_run n A x0 (fun i => b i - mv n A x0 i) k X r D -> (forall j, (j < k)%nat -> exists i, (i < n)%nat /\ r j i <> 0) ->
  (forall i j, (i < j <= k)%nat -> dot n (r j) (r i) = 0) /\
  (forall i j, (i < j <= k)%nat -> dot n (D j) (mv n A (D i)) = 0) /\
  (k <= n)%nat /\ (k = n -> forall i, (i < n)%nat -> r k i = 0).
Proof.
  intros n A Hs Hp x0 b k X r D Hrun Hnz.
  assert (Hq : forall j, (j < k)%nat -> sumsq n (r j) <> 0).
  { intros j Hj H. destruct (Hnz j Hj) as (i & Hi & H'). apply H'. exact (proj1 (sumsq_zero n (r j)) H i Hi). }
  destruct (cg_inv_holds n A Hs Hp x0 b k X r D Hrun Hq k (le_n k)) as (H1 & _ & H2 & _).
  split; [exact H1|]. split; [exact H2|]. split; [exact (cg_steps n A Hs Hp x0 b k X r D Hrun Hq)|exact (cg_zero_at_n n A Hs Hp x0 b k X r D Hrun Hq)].
Qed.
Print Assumptions C52_orthogonal.

(** Symmetric positive definite A, eps > 0, at least n iterations, start not a solution: the result w
    satisfies |b - A w| < eps. *)
Theorem C52_solves : forall n A jac func b eps iters x0 g0, symmetric n A -> pos_def n A -> computes_mat jac n n n (fun _ => A) -> (0 < n)%nat ->
  computes func n n (fun g i => b i - mv n A g i) -> is_col x0 n g0 ->
  (exists i, (i < n)%nat /\ mv n A g0 i <> b i) -> 0 < eps -> (n <= iters)%nat ->
  exists w g, cg_min iters eps func jac x0 = Ret w /\ is_col w n g /\ enorm n (fun i => b i - mv n A g i) < eps.
Proof.
  intros n A jac func b eps iters x0 g0 Hs Hp HJ Hn HF Hx Hne He Hit.
  destruct (C52_run n A jac func b eps iters x0 g0 HJ Hn HF Hx) as (w & k & X & r & D & E & Hk & Hw & Hrun & Hres & H1 & H2).
  exists w, (X k). split; [exact E|]. split; [exact Hw|]. rewrite <- (enorm_ext n (r k)) by (apply Hres; lia).
  destruct H2 as [->|(_ & H2)]; [|exact H2].
  assert (Hnz : forall j, (j < iters)%nat -> exists i, (i < n)%nat /\ r j i <> 0).
  { intros j Hj. destruct j as [|j]; [destruct Hne as (i & Hi & Hn'); exists i; split; [exact Hi|]; rewrite Hres, (proj1 Hrun) by lia; lra|].
    apply sumsq_nz_ex. intros H. pose proof (H1 (S j) ltac:(lia)) as H3. unfold enorm in H3. rewrite H, sqrt_0 in H3. lra. }
  destruct (C52_orthogonal n A Hs Hp g0 b iters X r D Hrun Hnz) as (_ & _ & Hle & Hz).
  rewrite (enorm_ext n (r iters) (fun _ => 0)) by (apply Hz; lia). unfold enorm, sumsq.
  rewrite (sumR_ext n _ (fun _ => 0)) by (intros; ring). rewrite sumR_zero, sqrt_0. exact He.
Qed.
Print Assumptions C52_solves.
(** One iteration from zero solves 2 x = 4. *)
Example C52_example : symmetric 1 (fun _ _ => 2) /\ pos_def 1 (fun _ _ => 2) /\
  (exists i, (i < 1)%nat /\ mv 1 (fun _ _ => 2) (fun _ => 0) i <> 4).
Proof.
  split; [intros i j _ _; reflexivity|]. split; [|exists 0%nat; split; [lia|rewrite mv_1; lra]].
  intros x (i & Hi & Hx). replace i with 0%nat in Hx by lia. unfold quad. rewrite !sumR_S. change (0 < 0 + (0 + x 0%nat * 2 * x 0%nat)). nra.
Qed.
(** 3x + y = 5, x + 2y = 5 from (0,0): two iterations give a residual below any eps > 0. *)
Example C52_solves_example : forall eps, 0 < eps -> exists w g, cg_min 2 eps e2_resid e2_jac (mkMatrix 2 1 [0; 0]) = Ret w /\ is_col w 2 g /\
  enorm 2 (fun i => e2_b i - mv 2 e2_A g i) < eps.
Proof.
  intros eps He. apply (C52_solves 2 e2_A e2_jac e2_resid e2_b eps 2 _ _ e2_symmetric e2_pos_def e2_jac_computes ltac:(lia) e2_resid_computes (is_v2 0 0)); auto.
  exists 0%nat. split; [lia|]. rewrite mv_2. cbv [e2_A e2_b m2 v2 nth Nat.mul Nat.add]. lra.
Qed.

(** The k-th iterate is the best of all points x0 + c_0 D_0 + .. + c_(k-1) D_(k-1): its error e = x - s,
    s the solution, has the least e^T A e ([quad] is x^T A x). *)
Theorem C52_optimal : forall n A, symmetric n A -> pos_def n A -> forall x0 b s k X r D,
  cg_run n A x0 (fun i => b i - mv n A x0 i) k X r D -> (forall j, (j < k)%nat -> exists i, (i < n)%nat /\ r j i <> 0) ->
  (forall i, (i < n)%nat -> mv n A s i = b i) ->
  forall j c, (j <= k)%nat -> quad n A (fun i => X j i - s i) <= quad n A (fun i => x0 i + sumn j (fun l => c l * D l i) - s i).
Proof.
  intros n A Hs Hp x0 b s k X r D Hrun Hnz Hsol j c Hj. refine (cg_optimal n A x0 b s k X r D Hs Hp Hrun _ Hsol j c Hj).
  intros l Hl H. destruct (Hnz l Hl) as (i & Hi & H'). apply H'. exact (proj1 (sumsq_zero n (r l)) H i Hi).
Qed.
Print Assumptions C52_optimal.
(** Linear convergence: if m |v|^2 <= v^T A v <= M |v|^2 for all v, every iteration multiplies e^T A e by at most 1 - m/M, so
    the result has a residual below eps or (1 - m/M)^iters times the initial e^T A e. *)
Theorem C52_rate : forall n A jac func b s m M eps iters x0 g0, symmetric n A -> 0 < m ->
  (forall v, m * sumsq n v <= quad n A v <= M * sumsq n v) -> computes_mat jac n n n (fun _ => A) -> (0 < n)%nat ->
  computes func n n (fun g i => b i - mv n A g i) -> is_col x0 n g0 -> (forall i, (i < n)%nat -> mv n A s i = b i) ->
  (exists i, (i < n)%nat /\ mv n A g0 i <> b i) -> 0 < eps ->
  exists w g, cg_min iters eps func jac x0 = Ret w /\ is_col w n g /\
    (enorm n (fun i => b i - mv n A g i) < eps \/
     quad n A (fun i => g i - s i) <= (1 - m / M) ^ iters * quad n A (fun i => g0 i - s i)).
Proof.
  intros n A jac func b s m M eps iters x0 g0 Hs Hm Hb HJ Hn HF Hx Hsol Hne He.
  assert (Hp : pos_def n A).
  { intros v (i & Hi & Hv). pose proof (proj1 (Hb v)). pose proof (sumsq_nonneg n v). assert (sumsq n v <> 0) by (intros Z; exact (Hv (proj1 (sumsq_zero n v) Z i Hi))).
    assert (0 < m * sumsq n v) by (apply Rmult_lt_0_compat; lra). lra. }
  destruct (C52_run n A jac func b eps iters x0 g0 HJ Hn HF Hx) as (w & k & X & r & D & E & Hk & Hw & Hrun & Hres & H1 & H2).
  exists w, (X k). split; [exact E|]. split; [exact Hw|]. destruct H2 as [->|(_ & H2)].
  - right. apply (cg_rate n A g0 b s iters X r D Hs Hp Hrun) with (m := m) (M := M); try exact Hm; try (intros v; apply Hb); [|exact Hsol|lia].
    intros j Hj. destruct j as [|j].
    + intros Z. destruct Hne as (i & Hi & Hn'). apply Hn'. pose proof (proj1 (sumsq_zero n _) Z i Hi) as Z'. rewrite Hres, (proj1 Hrun) in Z' by lia. lra.
    + intros Z. pose proof (H1 (S j) ltac:(lia)) as H3. unfold enorm in H3. rewrite Z, sqrt_0 in H3. lra.
  - left. rewrite <- (enorm_ext n (r k)) by (apply Hres; lia). exact H2.
Qed.
Print Assumptions C52_rate.
(** 3x + y = 5, x + 2y = 5 with m = 1, M = 4. *)
Example C52_rate_example : forall eps iters, 0 < eps -> exists w g, cg_min iters eps e2_resid e2_jac (mkMatrix 2 1 [0; 0]) = Ret w /\ is_col w 2 g /\
  (enorm 2 (fun i => e2_b i - mv 2 e2_A g i) < eps \/ quad 2 e2_A (fun i => g i - v2 1 2 i) <= (1 - 1 / 4) ^ iters * quad 2 e2_A (fun i => v2 0 0 i - v2 1 2 i)).
Proof.
  intros eps iters He. apply (C52_rate 2 e2_A e2_jac e2_resid e2_b (v2 1 2) 1 4 eps iters _ _ e2_symmetric ltac:(lra)); auto using e2_jac_computes, e2_resid_computes, is_v2.
  - intros v. rewrite quad_dot, dot_2, !mv_2, sumsq_2. cbv [e2_A m2 nth Nat.mul Nat.add]. split; nra.
  - exact e2_solution.
  - exists 0%nat. split; [lia|]. rewrite mv_2. cbv [e2_A e2_b m2 v2 nth Nat.mul Nat.add]. lra.
Qed.

(** f64, any [powf]: started at the exact solution, 2 x = 4 from x = 2, the result is NaN. *)
Theorem C52_start_at_solution_f64_refuted : forall (pw : f64 -> f64 -> f64) (eps : f64),
  f64_2x (mkMatrix 1 1 [of_Z 2]) = Ret (mkMatrix 1 1 [zero]) /\
  @cg_min f64 F64_ops (F64_pops pw) 1 eps f64_2x f64_2x_jac (mkMatrix 1 1 [of_Z 2]) = Ret (mkMatrix 1 1 [S754_nan]).
Proof. intros pw eps. split; [vm_compute; reflexivity|]. vm_compute. match goal with |- (if ?b then _ else _) = _ => destruct b end; reflexivity. Qed.
Print Assumptions C52_start_at_solution_f64_refuted.
(** With eps = 0 and more iterations than unknowns, a solved system turns into NaN: 2 x = 4 from 0,
    exact after one iteration, NaN after two (given 0^0.5 = 0). *)
Theorem C52_zero_eps_f64_refuted : forall (pw : f64 -> f64 -> f64), pw zero (S754_finite false 4503599627370496 (-53)) = zero ->
  @cg_min f64 F64_ops (F64_pops pw) 1 zero f64_2x f64_2x_jac (mkMatrix 1 1 [zero]) = Ret (mkMatrix 1 1 [of_Z 2]) /\
  @cg_min f64 F64_ops (F64_pops pw) 2 zero f64_2x f64_2x_jac (mkMatrix 1 1 [zero]) = Ret (mkMatrix 1 1 [S754_nan]).
Proof.
  intros pw H. change (pw (S754_zero false) (S754_finite false 4503599627370496 (-53)) = S754_zero false) in H.
  split; vm_compute; rewrite H; vm_compute; [reflexivity|]. match goal with |- (if ?b then _ else _) = _ => destruct b end; reflexivity.
Qed.
Print Assumptions C52_zero_eps_f64_refuted.

(** * C53 *)

(** Levenberg-Marquardt, n unknowns, p residuals, where transposition works (square, one row or one
    column, C06) and [solve] handles the damped normal matrices.  Every step D_k solves
    (J^T J + mu^2 I) D_k = -J^T F with a mu > 0, and decreases |F|^2 by at least
    beta_0 (|J D_k|^2 + 2 mu^2 |D_k|^2), beta_0 times the predicted decrease. *)
Theorem C53_lm_run : forall func jac n p F J, computes func n p F -> computes_mat jac n p n J -> (0 < n)%nat -> (0 < p)%nat ->
  (p = n \/ p = 1 \/ n = 1)%nat ->
  (forall g mu A, 0 < mu -> is_mat A n n (jtj_damped p (J g) mu) -> solver_ok A n (jtj_damped p (J g) mu)) ->
  forall beta_0 beta_1 fuel iters x g, is_col x n g ->
  exists r, lm_min iters fuel beta_0 beta_1 func jac x = Ret r /\ forall w, r = Some w ->
    exists X D mu, X 0%nat = g /\ is_col w n (X iters) /\ forall k, (k < iters)%nat -> 0 < mu k /\
      X (S k) = (fun i => X k i + D k i) /\
      (forall i, (i < n)%nat -> mv n (jtj_damped p (J (X k)) (mu k)) (D k) i = - sumn p (fun l => J (X k) l i * F (X k) l)) /\
      sumsq p (F (X (S k))) + beta_0 * (sumsq p (mv n (J (X k)) (D k)) + 2 * (mu k * mu k) * sumsq n (D k)) <= sumsq p (F (X k)).
Proof.
  intros func jac n p F J HF HJ Hn Hp Hsh HS beta_0 beta_1 fuel iters x g Hx.
  destruct (lm_loop_spec func jac n p F J HF HJ Hn Hp Hsh HS beta_0 beta_1 fuel iters x g half Hx) as (r & E & Hr); [cbn [half R_pops]; lra|].
  exists r. split; [exact E|]. intros w ->. destruct Hr as (X & D & M & H0 & Hw & Hk). exists X, D, M. split; [exact H0|]. split; [exact Hw|].
  intros k Hlt. destruct (Hk k Hlt) as (H1 & H2 & H3 & H4). split; [exact H1|]. split; [exact H2|]. split; [exact H3|]. rewrite H2. exact H4.
Qed.
Print Assumptions C53_lm_run.

(** One unknown, any number of residuals: no hypothesis on [solve], and for beta_0 >= 0 the sum of
    squares never increases. *)
Theorem C53_lm_one_unknown : forall func jac p F J, computes func 1 p F -> computes_mat jac 1 p 1 J -> (0 < p)%nat ->
  forall beta_0 beta_1 fuel iters x g, 0 <= beta_0 -> is_col x 1 g ->
  exists r, lm_min iters fuel beta_0 beta_1 func jac x = Ret r /\ forall w, r = Some w ->
    exists h, is_col w 1 h /\ sumsq p (F h) <= sumsq p (F g).
Proof.
  intros func jac p F J HF HJ Hp beta_0 beta_1 fuel iters x g Hb Hx.
  destruct (C53_lm_run func jac 1 p F J HF HJ ltac:(lia) Hp ltac:(lia) (fun g mu A => damped_1_solver p (J g) mu A) beta_0 beta_1 fuel iters x g Hx) as (r & E & Hr).
  exists r. split; [exact E|]. intros w Ew. destruct (Hr w Ew) as (X & D & mu & H0 & Hw & Hk). exists (X iters). split; [exact Hw|].
  assert (Hle : forall k, (k <= iters)%nat -> sumsq p (F (X k)) <= sumsq p (F g)); [|apply Hle; lia].
  induction k as [|k IH]; intros Hlt; [rewrite H0; lra|]. destruct (Hk k ltac:(lia)) as (Hmu & _ & _ & Hd). specialize (IH ltac:(lia)).
  pose proof (sumsq_nonneg p (mv 1 (J (X k)) (D k))) as S1. pose proof (Rmult_le_pos _ _ (Rlt_le _ _ (Rmult_lt_0_compat _ _ Hmu Hmu)) (sumsq_nonneg 1 (D k))) as S2.
  assert (0 <= sumsq p (mv 1 (J (X k)) (D k)) + 2 * (mu k * mu k) * sumsq 1 (D k)) by lra.
  pose proof (Rmult_le_pos _ _ Hb H). lra.
Qed.
Print Assumptions C53_lm_one_unknown.
Example C53_example : computes sq2_func 1 1 (fun g _ => g 0%nat * g 0%nat - 2) /\ computes_mat sq2_jac 1 1 1 (fun g _ _ => 2 * g 0%nat).
Proof. split; [exact sq2_computes|exact sq2_jac_computes]. Qed.
(** Two residuals of two unknowns: every accepted point has no larger residual. *)
Example C53_lm_example : forall fuel iters, exists r, lm_min iters fuel (1 / 4) (3 / 4) e2_func e2_jac (mkMatrix 2 1 [10; -7]) = Ret r /\
  forall w, r = Some w -> exists X D mu, X 0%nat = v2 10 (-7) /\ is_col w 2 (X iters) /\ forall k, (k < iters)%nat -> 0 < mu k /\
      X (S k) = (fun i => X k i + D k i) /\
      (forall i, (i < 2)%nat -> mv 2 (jtj_damped 2 e2_A (mu k)) (D k) i = - sumn 2 (fun l => e2_A l i * (mv 2 e2_A (X k) l - e2_b l))) /\
      sumsq 2 (fun i => mv 2 e2_A (X (S k)) i - e2_b i) + 1 / 4 * (sumsq 2 (mv 2 e2_A (D k)) + 2 * (mu k * mu k) * sumsq 2 (D k)) <=
      sumsq 2 (fun i => mv 2 e2_A (X k) i - e2_b i).
Proof.
  intros fuel iters. apply (C53_lm_run _ _ 2 2 _ _ e2_func_computes e2_jac_computes ltac:(lia) ltac:(lia) ltac:(lia) (fun _ => e2_lm_solver)). apply is_v2.
Qed.

(** The damping search ends. The sum of squares has a second-order Taylor bound with constant L and beta_0 lies strictly between 0 and 1:
    with enough damping trials per iteration ([fuel]; the code has no limit) the configured number of iterations is reached, unless an
    earlier iterate is a stationary point, a zero of J^T F (there the code divides zero by zero). *)
Theorem C53_lm_terminates : forall func jac n p F J L beta_0 beta_1, computes func n p F -> computes_mat jac n p n J -> (0 < n)%nat -> (0 < p)%nat ->
  (p = n \/ p = 1%nat \/ n = 1%nat) ->
  (forall g mu A, 0 < mu -> is_mat A n n (jtj_damped p (J g) mu) -> solver_ok A n (jtj_damped p (J g) mu)) ->
  0 <= L -> 0 < beta_0 < 1 ->
  (forall g d, sumsq p (F (fun i => g i + d i)) <= sumsq p (F g) + 2 * dot n (fun i => sumn p (fun l => J g l i * F g l)) d + L * sumsq n d) ->
  forall iters x0 g0, is_col x0 n g0 ->
  exists fuel0, forall fuel, (fuel0 <= fuel)%nat ->
    (exists w, lm_min iters fuel beta_0 beta_1 func jac x0 = Ret (Some w)) \/
    (exists k y g, (k < iters)%nat /\ lm_min k fuel beta_0 beta_1 func jac x0 = Ret (Some y) /\ is_col y n g /\
       forall i, (i < n)%nat -> sumn p (fun l => J g l i * F g l) = 0).
Proof.
  intros func jac n p F J L b0 b1 HF HJ Hn Hp Hs HS HL Hb Hsm iters x0 g0 Hx.
  exact (lm_terminates func jac n p F J HF HJ Hn Hp Hs HS L b0 b1 HL Hb Hsm iters x0 g0 Hx).
Qed.
Print Assumptions C53_lm_terminates.
(** The rate. With moreover a bound A on the squared Frobenius norm of the Jacobian: among the first [iters] iterates one has a squared
    gradient |J^T F|^2 of at most a constant over [iters]. The iterates are the results of the shorter runs. *)
Theorem C53_lm_stationary : forall func jac n p F J L beta_0 beta_1, computes func n p F -> computes_mat jac n p n J -> (0 < n)%nat -> (0 < p)%nat ->
  (p = n \/ p = 1%nat \/ n = 1%nat) ->
  (forall g mu A, 0 < mu -> is_mat A n n (jtj_damped p (J g) mu) -> solver_ok A n (jtj_damped p (J g) mu)) ->
  0 < beta_0 < 1 ->
  (forall g d, sumsq p (F (fun i => g i + d i)) <= sumsq p (F g) + 2 * dot n (fun i => sumn p (fun l => J g l i * F g l)) d + L * sumsq n d) ->
  forall A, (forall g, sumn p (fun l => sumsq n (J g l)) <= A) ->
  forall fuel iters x0 g0 w, is_col x0 n g0 -> (0 < iters)%nat -> lm_min iters fuel beta_0 beta_1 func jac x0 = Ret (Some w) ->
  exists k y g, (k < iters)%nat /\ lm_min k fuel beta_0 beta_1 func jac x0 = Ret (Some y) /\ is_col y n g /\
    beta_0 * INR iters * sumsq n (fun i => sumn p (fun l => J g l i * F g l)) <= Rmax (2 * A) (Rmax (1 / 4) (2 * L / (1 - beta_0))) * sumsq p (F g0).
Proof.
  intros func jac n p F J L b0 b1 HF HJ Hn Hp Hs HS Hb Hsm A HA fuel iters x0 g0 w Hx Hi E.
  exact (lm_stationary func jac n p F J HF HJ Hn Hp Hs HS L b0 b1 Hb Hsm A fuel iters x0 g0 w HA Hx Hi E).
Qed.
Print Assumptions C53_lm_stationary.
(** The residual sqrt (1 + x^2), with gradient x of half its square, from every start; and two linear residuals of two unknowns. *)
Example C53_lm_conv_example :
  (forall a iters, exists fuel0, forall fuel, (fuel0 <= fuel)%nat ->
     (exists w, lm_min iters fuel (1 / 4) (3 / 4) hub_func hub_jac (mkMatrix 1 1 [a]) = Ret (Some w)) \/
     (exists k y g, (k < iters)%nat /\ lm_min k fuel (1 / 4) (3 / 4) hub_func hub_jac (mkMatrix 1 1 [a]) = Ret (Some y) /\ is_col y 1 g /\ g 0%nat = 0)) /\
  (forall a fuel iters w, (0 < iters)%nat -> lm_min iters fuel (1 / 4) (3 / 4) hub_func hub_jac (mkMatrix 1 1 [a]) = Ret (Some w) ->
     exists k y g, (k < iters)%nat /\ lm_min k fuel (1 / 4) (3 / 4) hub_func hub_jac (mkMatrix 1 1 [a]) = Ret (Some y) /\ is_col y 1 g /\
       INR iters * (g 0%nat * g 0%nat) <= 32 / 3 * (1 + a * a)) /\
  (forall iters, exists fuel0, forall fuel, (fuel0 <= fuel)%nat ->
     (exists w, lm_min iters fuel (1 / 4) (3 / 4) e2_func e2_jac (mkMatrix 2 1 [10; -7]) = Ret (Some w)) \/
     (exists k y g, (k < iters)%nat /\ lm_min k fuel (1 / 4) (3 / 4) e2_func e2_jac (mkMatrix 2 1 [10; -7]) = Ret (Some y) /\ is_col y 2 g /\
        forall i, (i < 2)%nat -> sumn 2 (fun l => e2_A l i * (mv 2 e2_A g l - e2_b l)) = 0)).
Proof.
  split; [|split].
  - intros a iters. destruct (C53_lm_terminates _ _ 1 1 _ _ 1 (1 / 4) (3 / 4) hub_computes hub_jac_computes ltac:(lia) ltac:(lia) ltac:(lia) (fun g => damped_1_solver 1 _) ltac:(lra) ltac:(lra) hub_lm_smooth
      iters (mkMatrix 1 1 [a]) (fun _ => a) (tan_col a)) as (f0 & H).
    exists f0. intros fuel Hf. destruct (H fuel Hf) as [Hw|(k & y & g & Hk & E & Hy & Hz)]; [left; exact Hw|right].
    exists k, y, g. split; [exact Hk|]. split; [exact E|]. split; [exact Hy|]. rewrite <- (hub_lm_grad g). exact (Hz 0%nat ltac:(lia)).
  - intros a fuel iters w Hi E. destruct (C53_lm_stationary _ _ 1 1 _ _ 1 (1 / 4) (3 / 4) hub_computes hub_jac_computes ltac:(lia) ltac:(lia) ltac:(lia) (fun g => damped_1_solver 1 _) ltac:(lra) hub_lm_smooth
      1 hub_lm_bound fuel iters (mkMatrix 1 1 [a]) (fun _ => a) w (tan_col a) Hi E) as (k & y & g & Hk & Ek & Hy & Hz).
    exists k, y, g. split; [exact Hk|]. split; [exact Ek|]. split; [exact Hy|]. rewrite hub_lm_grad, !sumsq_1, hub_sq in Hz.
    rewrite (Rmax_right (1 / 4)), Rmax_right in Hz by (try (apply Rmax_case); lra). lra.
  - intros iters. exact (C53_lm_terminates _ _ 2 2 _ _ _ (1 / 4) (3 / 4) e2_func_computes e2_jac_computes ltac:(lia) ltac:(lia) ltac:(lia) (fun _ => e2_lm_solver)
      (e2_frob_nonneg) ltac:(lra) (lin_smooth 2 2 e2_A e2_b) iters _ _ (is_v2 10 (-7))).
Qed.

(** Three residuals, two unknowns (f64, any [powf]): from (0, 0) one iteration moves to (4, 0), and
    the sum of squares rises from 1 to 17, because the 3 x 2 Jacobian is transposed wrongly. *)
Theorem C53_lm_non_square_refuted : forall pw : f64 -> f64 -> f64,
  @lm_min f64 F64_ops (F64_pops pw) 1 1 (lit 1 4) (lit 3 4) f64_res f64_res_jac (mkMatrix 2 1 [zero; zero]) = Ret (Some (mkMatrix 2 1 [of_Z 4; zero])) /\
  f64_res (mkMatrix 2 1 [zero; zero]) = Ret (mkMatrix 3 1 [zero; of_Z (-1); zero]) /\
  f64_res (mkMatrix 2 1 [of_Z 4; zero]) = Ret (mkMatrix 3 1 [zero; of_Z (-1); of_Z 4]).
Proof. intros pw. split; [vm_compute; reflexivity|]. split; vm_compute; reflexivity. Qed.
Print Assumptions C53_lm_non_square_refuted.

(** Gauss-Newton performs exactly the configured number of updates x - pinv(J) F. *)
Theorem C53_gn_run : forall func jac n p F J, computes func n p F -> computes_mat jac n p n J ->
  forall good : (nat -> R) -> (nat -> nat -> R) -> Prop,
  (forall A g, is_mat A p n (J g) -> exists P pf, mpinv A = Ret P /\ is_mat P n p pf /\ good g pf) ->
  forall iters x0 g0, is_col x0 n g0 -> exists w X, gn_min iters func jac x0 = Ret w /\ is_col w n (X iters) /\ X 0%nat = g0 /\
    forall k, (k < iters)%nat -> exists pf, good (X k) pf /\ X (S k) = (fun i => X k i - mv p pf (F (X k)) i).
Proof. exact gn_min_spec. Qed.
Print Assumptions C53_gn_run.
(** Square systems whose Jacobians have a QR decomposition without zero on the diagonal of R: these
    are Newton steps. *)
Theorem C53_gn_square : forall func jac n F J, computes func n n F -> computes_mat jac n n n J -> (0 < n)%nat ->
  (forall A g, is_mat A n n (J g) -> exists Q Rm fr, dec_qr A = Ret (Q, Rm) /\ is_mat Rm n n fr /\ forall k, (k < n)%nat -> fr k k <> 0) ->
  forall iters x0 g0, is_col x0 n g0 ->
  exists w X B, gn_min iters func jac x0 = Ret w /\ is_col w n (X iters) /\ newton_run n F J g0 iters X B.
Proof. intros func jac n F J HF HJ. exact (gn_square func jac n n F J HF HJ eq_refl). Qed.
Print Assumptions C53_gn_square.
(** One unknown, first entry of the Jacobian nonzero: least-squares steps x - (J . F) / |J|^2. *)
Theorem C53_gn_one_unknown : forall func jac p F J, computes func 1 p F -> computes_mat jac 1 p 1 J -> (0 < p)%nat -> (forall g, J g 0%nat 0%nat <> 0) ->
  forall iters x0 g0, is_col x0 1 g0 -> exists w X, gn_min iters func jac x0 = Ret w /\ is_col w 1 (X iters) /\ X 0%nat = g0 /\
    forall k, (k < iters)%nat -> X (S k) 0%nat = X k 0%nat - dot p (fun l => J (X k) l 0%nat) (F (X k)) / sumsq p (fun l => J (X k) l 0%nat).
Proof. intros func jac p F J HF HJ. exact (gn_one func jac 1 p F J HF HJ eq_refl). Qed.
Print Assumptions C53_gn_one_unknown.
(** 2x + y = 4, 4y = 8 with its upper triangular Jacobian, and two measurements of one unknown. *)
Example C53_gn_example :
  (exists w X B, gn_min 3 e2_ufunc e2_ujac (mkMatrix 2 1 [10; -7]) = Ret w /\ is_col w 2 (X 3%nat) /\
     newton_run 2 (fun g i => mv 2 (m2 2 0 1 4) g i - v2 4 8 i) (fun _ => m2 2 0 1 4) (v2 10 (-7)) 3 X B) /\
  (exists w X, gn_min 1 e2_fit e2_fitjac (mkMatrix 1 1 [7]) = Ret w /\ is_col w 1 (X 1%nat) /\ X 1%nat 0%nat = 13 / 5).
Proof.
  split.
  - apply (C53_gn_square _ _ 2 _ _ e2_ufunc_computes e2_ujac_computes ltac:(lia)); [intros A _; apply e2_uqr|apply is_v2].
  - destruct (C53_gn_one_unknown _ _ 2 _ _ e2_fit_computes e2_fitjac_computes ltac:(lia)) with (iters := 1%nat) (x0 := mkMatrix 1 1 [7]) (g0 := fun _ : nat => 7) as (w & X & E & Hw & H0 & H).
    + intros _. cbv [v2 nth]. lra.
    + apply tan_col.
    + exists w, X. split; [exact E|]. split; [exact Hw|]. rewrite (H 0%nat ltac:(lia)). rewrite dot_2, sumsq_2, H0. cbv [v2 nth]. field.
Qed.

(** Square systems near a root r: the Jacobian stretches every vector by at least m and the
    linearisation error is at most K times the squared distance.  The distance to the root is squared
    by every iteration. *)
Theorem C53_gn_local : forall func jac n F J r rho m K, computes func n n F -> computes_mat jac n n n J -> (0 < n)%nat ->
  0 < m -> 0 < K -> K * rho <= m ->
  (forall x g A, is_col x n g -> enorm n (fun i => g i - r i) <= rho -> jac x = Ret A ->
     exists Q Rm fr, dec_qr A = Ret (Q, Rm) /\ is_mat Rm n n fr /\ forall k, (k < n)%nat -> fr k k <> 0) ->
  (forall g y, enorm n (fun i => g i - r i) <= rho -> m * enorm n y <= enorm n (mv n (J g) y)) ->
  (forall g, enorm n (fun i => g i - r i) <= rho ->
     enorm n (fun i => F g i - mv n (J g) (fun k => g k - r k) i) <= K * Rsqr (enorm n (fun i => g i - r i))) ->
  forall iters x0 g0, is_col x0 n g0 -> enorm n (fun i => g0 i - r i) <= rho ->
  exists w g, gn_min iters func jac x0 = Ret w /\ is_col w n g /\
    K / m * enorm n (fun i => g i - r i) <= (K / m * enorm n (fun i => g0 i - r i)) ^ (2 ^ iters).
Proof. exact gn_local_square. Qed.
Print Assumptions C53_gn_local.
(** One unknown and p residuals near xs, where the residuals need not vanish: the product of the
    Jacobian at x with the residuals at xs is at most S |x - xs| (so it is zero at xs: xs is
    stationary).  The distance to xs shrinks by K rho / m + S / m^2 in every iteration. *)
Theorem C53_gn_linear : forall func jac p F J xs rho m K S, computes func 1 p F -> computes_mat jac 1 p 1 J -> (0 < p)%nat ->
  0 < m -> 0 <= K -> 0 <= S -> K * rho / m + S / (m * m) <= 1 ->
  (forall g, Rabs (g 0%nat - xs) <= rho -> J g 0%nat 0%nat <> 0 /\ m <= enorm p (fun l => J g l 0%nat) /\
     enorm p (fun l => F g l - F (fun _ => xs) l - J g l 0%nat * (g 0%nat - xs)) <= K * (g 0%nat - xs) ^ 2 /\
     Rabs (dot p (fun l => J g l 0%nat) (F (fun _ => xs))) <= S * Rabs (g 0%nat - xs)) ->
  forall iters x0 g0, is_col x0 1 g0 -> Rabs (g0 0%nat - xs) <= rho ->
  exists w g, gn_min iters func jac x0 = Ret w /\ is_col w 1 g /\
    Rabs (g 0%nat - xs) <= (K * rho / m + S / (m * m)) ^ iters * Rabs (g0 0%nat - xs).
Proof. exact gn_local_one. Qed.
Print Assumptions C53_gn_linear.
(** x^2 = 2 from 3/2, and the residuals x - 2 and x^2 - 1/2, which do not vanish at the minimum 1. *)
Example C53_gn_local_example :
  (exists w g, gn_min 4 sq2_func sq2_jac (mkMatrix 1 1 [3 / 2]) = Ret w /\ is_col w 1 g /\
     1 / 2 * enorm 1 (fun i => g i - sqrt 2) <= (1 / 2 * enorm 1 (fun _ => 3 / 2 - sqrt 2)) ^ (2 ^ 4)) /\
  (exists w g, gn_min 10 par_func par_jac (mkMatrix 1 1 [5 / 4]) = Ret w /\ is_col w 1 g /\
     Rabs (g 0%nat - 1) <= (1 * (1 / 4) / (3 / 2) + 1 / (3 / 2 * (3 / 2))) ^ 10 * Rabs (5 / 4 - 1)).
Proof.
  split.
  - apply (C53_gn_local _ _ 1 _ _ (fun _ => sqrt 2) (1 / 4) 2 1 sq2_computes sq2_jac_computes ltac:(lia) ltac:(lra) ltac:(lra) ltac:(lra) sq2_gn_qr sq2_gn_inv sq2_gn_tay 4 _ (fun _ => 3 / 2)); [apply tan_col|].
    rewrite enorm_1. pose proof sqrt2_lower. apply Rabs_le. split; [|lra]. assert (sqrt 2 <= 7 / 4); [|lra].
    rewrite <- (sqrt_Rsqr (7 / 4)) by lra. apply sqrt_le_1_alt. unfold Rsqr. lra.
  - apply (C53_gn_linear _ _ 2 _ _ 1 (1 / 4) (3 / 2) 1 1 par_computes par_jac_computes ltac:(lia) ltac:(lra) ltac:(lra) ltac:(lra) ltac:(lra) par_near 10 _ (fun _ => 5 / 4)); [apply tan_col|].
    rewrite Rabs_pos_eq; lra.
Qed.

(** * C68: the pseudo inverse *)

(** Square A whose QR decomposition has no zero on the diagonal of R: the two-sided inverse. *)
Theorem C68_square : forall (A : matrix R) n a Q Rm fr, is_mat A n n a -> (0 < n)%nat -> dec_qr A = Ret (Q, Rm) ->
  is_mat Rm n n fr -> (forall k, (k < n)%nat -> fr k k <> 0) ->
  exists P pf, mpinv A = Ret P /\ is_mat P n n pf /\ feq n n (mulf n pf a) delta /\ feq n n (mulf n a pf) delta.
Proof. exact mpinv_square. Qed.
Print Assumptions C68_square.
(** Invertible upper triangular matrices satisfy the condition, since their R is A itself. *)
Theorem C68_upper_triangular : forall (A : matrix R) n a, is_mat A n n a -> (0 < n)%nat ->
  (forall i j, (j < i < n)%nat -> a i j = 0) -> (forall k, (k < n)%nat -> a k k <> 0) ->
  exists P pf, mpinv A = Ret P /\ is_mat P n n pf /\ feq n n (mulf n pf a) delta /\ feq n n (mulf n a pf) delta.
Proof.
  intros A n a HA Hn Hz Hd. destruct (dec_qr_upper R R_ops R_pops A n n a) as (I & _ & E); auto; [apply R_eqb_true; reflexivity|].
  exact (mpinv_square A n a I A a HA Hn E HA Hd).
Qed.
Print Assumptions C68_upper_triangular.
(** A single column with nonzero first entry: the row a^T / |a|^2. *)
Theorem C68_column : forall (A : matrix R) m a, is_mat A m 1 a -> (0 < m)%nat -> a 0%nat 0%nat <> 0 ->
  exists P, mpinv A = Ret P /\ is_mat P 1 m (fun _ i => a i 0%nat / sumsq m (fun l => a l 0%nat)).
Proof. exact mpinv_col. Qed.
Print Assumptions C68_column.
Example C68_example : is_mat (mkMatrix 2 2 [2; 0; 1; 4]) 2 2 (fun i j => nth (j * 2 + i) [2; 0; 1; 4] 0).
Proof. split; [reflexivity|]. split; [reflexivity|]. intros i j Hi Hj. destruct i as [|[|i]]; [| |lia]; (destruct j as [|[|j]]; [| |lia]); reflexivity. Qed.
Example C68_upper_example : exists P pf, mpinv (mkMatrix 2 2 [2; 0; 1; 4]) = Ret P /\ is_mat P 2 2 pf /\
  feq 2 2 (mulf 2 pf (m2 2 0 1 4)) delta /\ feq 2 2 (mulf 2 (m2 2 0 1 4) pf) delta.
Proof.
  destruct (e2_uqr _ (is_m2 2 0 1 4)) as (Q & Rm & fr & E & HR & Hd). exact (C68_square _ 2 _ Q Rm fr (is_m2 2 0 1 4) ltac:(lia) E HR Hd).
Qed.
Example C68_column_example : exists P, mpinv (mkMatrix 2 1 [1; 2]) = Ret P /\ is_mat P 1 2 (fun _ i => v2 1 2 i / sumsq 2 (v2 1 2)).
Proof. exact (C68_column (mkMatrix 2 1 [1; 2]) 2 (fun i _ => v2 1 2 i) (is_v2 1 2) ltac:(lia) ltac:(cbv [v2 nth]; lra)). Qed.
(** A 3 x 2 matrix of full column rank (exact rationals): the result is not a left inverse. *)
Theorem C68_non_square_refuted : forall P : POps Qc, let A := mkMatrix 3 2 [qz 1; qz 0; qz 0; qz 1; qz 1; qz 0] in
  mmul (mkMatrix 2 3 [qz 1; qz 0; qz (-1); qz 1; qz 0; qz 0]) A = Ret (mkMatrix 2 2 [qz 1; qz 0; qz 0; qz 1]) /\
  mpinv A = Ret (mkMatrix 2 3 [qz 1; qz 0; qz 1; qz 0; qz 1; qz 0]) /\
  mmul (mkMatrix 2 3 [qz 1; qz 0; qz 1; qz 0; qz 1; qz 0]) A = Ret (mkMatrix 2 2 [qz 1; qz 0; qz 2; qz 0]).
Proof. intros P A. split; [qcompute|]. split; [unfold A; rewrite (mpinv_32 P); qcompute|qcompute]. Qed.
Print Assumptions C68_non_square_refuted.
