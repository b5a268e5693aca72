(** Specification vocabulary for the accuracy of the implicit Euler solver. *)
From Coq Require Import Arith List Bool Reals.
From Verif Require Import Outcome Scalar RealOps Matrix_model Vector_model Matrix_spec LU_model Ode_model Optim_model Optim_spec Ode_spec OdeConv_spec.
Local Open Scope R_scope.

(** The implicit Euler solver whose root finder stops at steps below tol and after at most iters
    iterations, started within delta of y(t0), returns states on the grid t0, t0 + h, .., t1 whose
    components are within C (delta + h + tol / h) of y at every grid point.  One constant C serves all
    small h, delta and tol / h, provided the iteration limit is not tiny. *)
Definition implicit_euler_accurate (f : R -> vector R -> outcome (vector R)) (jac : R -> vector R -> outcome (matrix R)) (m : nat)
  (t0 t1 : R) (y : nat -> R -> R) : Prop :=
  exists C H, 0 < H /\ forall h delta tol iters init g0, 0 < h <= H -> 0 <= delta <= H -> 0 < tol -> tol / h <= H -> h <= H * (tol * 2 ^ iters) ->
  is_col init m g0 -> within m (fun l => g0 l - y l t0) delta ->
  exists N tv xv, INR N - 1 < (t1 - t0) / h <= INR N /\ fixed_solve h (ie_step iters tol f jac) t0 t1 init = Ret (tv, xv) /\
    length tv = S N /\ length xv = S N /\ (forall i, (i <= N)%nat -> nth i tv 0 = grid t0 t1 h i) /\
    forall i, (i <= N)%nat -> exists g, is_col (nth i xv (vzero 0)) m g /\
      within m (fun l => g l - y l (nth i tv 0)) (C * (delta + h + tol / h)).

(** Every entry of the Jacobian is at most L in absolute value at distance up to rho from the curve y. *)
Definition jacobian_bounded (m : nat) (J : R -> (nat -> R) -> nat -> nat -> R) (t0 t1 : R) (y : nat -> R -> R) (rho L : R) : Prop :=
  forall t x i j, t0 <= t <= t1 -> within m (fun l => x l - y l t) rho -> (i < m)%nat -> (j < m)%nat -> Rabs (J t x i j) <= L.

(** Linear systems with the matrices w J - I of the root finder are solved correctly, for w up to hs and states
    near the curve y. *)
Definition newton_solvable (jac : R -> vector R -> outcome (matrix R)) (m : nat) (J : R -> (nat -> R) -> nat -> nat -> R) (t0 t1 : R)
  (y : nat -> R -> R) (rho hs : R) : Prop :=
  forall t w z g A, t0 <= t <= t1 -> 0 <= w <= hs -> is_col z m g -> within m (fun l => g l - y l t) rho ->
    ie_jac jac t w z = Ret A -> solver_ok A m (fun i j => J t g i j * w - delta i j).
