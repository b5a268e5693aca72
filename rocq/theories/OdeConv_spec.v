(** Specification vocabulary for the convergence of one-step methods. *)
From Coq Require Import Arith List Bool Reals.
From Coquelicot Require Import Coquelicot.
From Verif Require Import Outcome Scalar RealOps Matrix_model Vector_model Matrix_spec Ode_model Ode_spec.
Local Open Scope R_scope.

(** All m components of d are at most r in absolute value. *)
Definition within (m : nat) (d : nat -> R) (r : R) : Prop := forall i, (i < m)%nat -> Rabs (d i) <= r.

(** [Y 0] solves the m-dimensional system x' = F(t, x) on [t0, t1]; [Y k i] is the k-th derivative
    of its i-th component, for k up to n, and all of these are bounded. *)
Definition smooth_solution (m : nat) (F : R -> (nat -> R) -> nat -> R) (t0 t1 : R) (n : nat)
  (Y : nat -> nat -> R -> R) : Prop :=
  (forall i t, (i < m)%nat -> t0 <= t <= t1 -> Y 1%nat i t = F t (fun l => Y 0%nat l t) i) /\
  (forall k i t, (k < n)%nat -> (i < m)%nat -> t0 <= t <= t1 -> is_derive (Y k i) t (Y (S k) i t)) /\
  exists M, forall k i t, (k <= n)%nat -> (i < m)%nat -> t0 <= t <= t1 -> Rabs (Y k i t) <= M.

(** F is Lipschitz with constant L in the state at distance up to rho from the curve y (maximum norm). *)
Definition lipschitz_near (m : nat) (F : R -> (nat -> R) -> nat -> R) (t0 t1 : R) (y : nat -> R -> R) (rho L : R) : Prop :=
  forall t x x' r, t0 <= t <= t1 -> within m (fun i => x i - y i t) rho -> within m (fun i => x' i - y i t) rho ->
    within m (fun i => x i - x' i) r -> within m (fun i => F t x i - F t x' i) (L * r).

(** The matrix [J 0] is the Jacobian of F in the state along the curve y, with a quadratic remainder;
    [J k] is the k-th time derivative of J, for k up to n, and all of these are bounded. *)
Definition smooth_jacobian (m : nat) (F : R -> (nat -> R) -> nat -> R) (t0 t1 : R) (y : nat -> R -> R) (rho : R) (n : nat)
  (J : nat -> nat -> nat -> R -> R) : Prop :=
  (exists Q, forall t d r i, t0 <= t <= t1 -> within m d r -> r <= rho -> (i < m)%nat ->
     Rabs (F t (fun l => y l t + d l) i - F t (fun l => y l t) i - sumn m (fun l => J 0%nat i l t * d l)) <= Q * r ^ 2) /\
  (forall k i l t, (k < n)%nat -> (i < m)%nat -> (l < m)%nat -> t0 <= t <= t1 -> is_derive (J k i l) t (J (S k) i l t)) /\
  exists M, forall k i l t, (k <= n)%nat -> (i < m)%nat -> (l < m)%nat -> t0 <= t <= t1 -> Rabs (J k i l t) <= M.

(** Second order: [J] is the Jacobian and [H 0] the second derivative of F in the state along the curve
    y, with a cubic remainder; [H 1] is the time derivative of [H 0] and both are bounded. *)
Definition smooth_hessian (m : nat) (F : R -> (nat -> R) -> nat -> R) (t0 t1 : R) (y : nat -> R -> R) (rho : R)
  (J : nat -> nat -> R -> R) (H : nat -> nat -> nat -> nat -> R -> R) : Prop :=
  (exists Q, forall t d r i, t0 <= t <= t1 -> within m d r -> r <= rho -> (i < m)%nat ->
     Rabs (F t (fun l => y l t + d l) i - F t (fun l => y l t) i - sumn m (fun l => J i l t * d l)
           - 1 / 2 * sumn m (fun l => sumn m (fun q => H 0%nat i l q t * d l * d q))) <= Q * r ^ 3) /\
  (forall i l q t, (i < m)%nat -> (l < m)%nat -> (q < m)%nat -> t0 <= t <= t1 -> is_derive (H 0%nat i l q) t (H 1%nat i l q t)) /\
  exists M, forall k i l q t, (k <= 1)%nat -> (i < m)%nat -> (l < m)%nat -> (q < m)%nat -> t0 <= t <= t1 -> Rabs (H k i l q t) <= M.

(** The fixed-step solver with method B, started within delta of y(t0), returns states on the grid
    t0, t0 + h, .., t1 whose components are within C (delta + h^p) of y at every grid point, with
    one constant C for all sufficiently small h and delta. *)
Definition converges_with_order (p : nat) (B : tableau R) (f : R -> vector R -> outcome (vector R)) (m : nat) (t0 t1 : R)
  (y : nat -> R -> R) : Prop :=
  exists C H, 0 < H /\ forall h delta init g0, 0 < h <= H -> 0 <= delta <= H ->
  is_col init m g0 -> within m (fun l => g0 l - y l t0) delta ->
  exists N tv xv, INR N - 1 < (t1 - t0) / h <= INR N /\ fixed_solve h (do_step B f) t0 t1 init = Ret (tv, xv) /\
    length tv = S N /\ length xv = S N /\ (forall i, (i <= N)%nat -> nth i tv 0 = grid t0 t1 h i) /\
    forall i, (i <= N)%nat -> exists g, is_col (nth i xv (vzero 0)) m g /\
      within m (fun l => g l - y l (nth i tv 0)) (C * (delta + h ^ p)).

(** One-step runs on an arbitrary increasing grid: if every state is the step of the method B from the
    previous one, no step is wider than h and the first state is within delta of y(t0), then the
    states are within C (delta + h^p) of y, with one constant C for all sufficiently small h and delta. *)
Definition accurate_on_grids (p : nat) (B : tableau R) (f : R -> vector R -> outcome (vector R)) (m : nat) (t0 t1 : R)
  (y : nat -> R -> R) : Prop :=
  exists C H, 0 < H /\ forall h delta N tv xv g0, 0 < h <= H -> 0 <= delta <= H ->
  length tv = S N -> length xv = S N -> nth 0 tv 0 = t0 -> nth N tv 0 <= t1 ->
  (forall i, (i < N)%nat -> 0 < nth (S i) tv 0 - nth i tv 0 <= h) ->
  is_col (nth 0 xv (vzero 0)) m g0 -> within m (fun l => g0 l - y l t0) delta ->
  (forall i, (i < N)%nat -> do_step B f (nth i tv 0) (nth i xv (vzero 0)) (nth (S i) tv 0 - nth i tv 0) = Ret (nth (S i) xv (vzero 0))) ->
  forall i, (i <= N)%nat -> exists g, is_col (nth i xv (vzero 0)) m g /\
    within m (fun l => g l - y l (nth i tv 0)) (C * (delta + h ^ p)).

(** The same for a multistep solver of order k, whose last time may miss t1 by 1e-10. *)
Definition multistep_converges (p : nat)
  (solve : (R -> vector R -> outcome (vector R)) -> R -> R -> nat -> nat -> R -> vector R -> outcome (option (list R * list (vector R))))
  (k : nat) (f : R -> vector R -> outcome (vector R)) (m : nat) (t0 t1 : R) (y : nat -> R -> R) : Prop :=
  exists C H, 0 < H /\ forall h delta init g0, 0 < h <= H -> 0 <= delta <= H ->
  is_col init m g0 -> within m (fun l => g0 l - y l t0) delta ->
  exists fuel0 M tv xv, (forall fuel, (fuel0 <= fuel)%nat -> solve f h t1 fuel k t0 init = Ret (Some (tv, xv))) /\
    length tv = S M /\ length xv = S M /\ (forall i, (i <= M)%nat -> nth i tv 0 = grid t0 t1 h i) /\
    t1 - 1 / 10000000000 <= nth M tv 0 <= t1 /\
    forall i, (i <= M)%nat -> exists g, is_col (nth i xv (vzero 0)) m g /\
      within m (fun l => g l - y l (nth i tv 0)) (C * (delta + h ^ p)).

(** Runs of the adaptive solver with the embedded method B: on Ok, if no step was wider than h and the
    initial value is within delta of y(t0), all returned states are within C (delta + h^p) of y, with
    one constant C for all controllers, fuel values, and sufficiently small h and delta. *)
Definition adaptive_accurate (p : nat) (B : tableau2 R) (f : R -> vector R -> outcome (vector R)) (m : nat) (t0 t1 : R)
  (y : nat -> R -> R) : Prop :=
  exists C H, 0 < H /\ forall ctl q fuel h delta init g0 tv xv,
  0 < h_0 ctl -> 0 < fac_min ctl -> 0 < fac_max ctl -> 0 < h <= H -> 0 <= delta <= H ->
  is_col init m g0 -> within m (fun l => g0 l - y l t0) delta ->
  adapt_solve ctl (do_step2 B f) q fuel t0 t1 init = Ret (Some (Some (tv, xv))) ->
  (forall i, (S i < length tv)%nat -> nth (S i) tv 0 - nth i tv 0 <= h) ->
  length xv = length tv /\ forall i, (i < length tv)%nat -> exists g, is_col (nth i xv (vzero 0)) m g /\
    within m (fun l => g l - y l (nth i tv 0)) (C * (delta + h ^ p)).

(** The adaptive solver, with steps that never grow (fac_max = 1), terminates and, if n_max is large
    enough, returns Ok with states within C (delta + h_0^p) of y on a grid from t0 to t1; C and K do not
    depend on the controller, the tolerances or the initial value.  The required n_max is explicit. *)
Definition adaptive_converges_with_order (p : nat) (B : tableau2 R) (f : R -> vector R -> outcome (vector R)) (m : nat) (t0 t1 : R)
  (y : nat -> R -> R) : Prop :=
  exists C K H, 0 < K /\ 0 < H /\ forall ctl q delta init g0,
  0 < h_0 ctl <= H -> 0 < fac ctl < 1 -> 0 < fac_min ctl < 1 -> fac_max ctl = 1 -> 0 < abs_tol ctl -> 0 <= rel_tol ctl -> 0 <= delta <= H ->
  is_col init m g0 -> within m (fun l => g0 l - y l t0) delta ->
  exists fuel0 res, (forall fuel, (fuel0 <= fuel)%nat -> adapt_solve ctl (do_step2 B f) q fuel t0 t1 init = Ret (Some res)) /\
    ((t1 - t0) / Rmin (h_0 ctl) (fac_min ctl * Rpower (fac ctl) (INR q + 1) * abs_tol ctl / K) <= INR (n_max ctl) ->
     exists tv xv, res = Some (tv, xv) /\ exists n, length tv = S n /\ length xv = S n /\ nth n tv 0 = t1 /\
       forall i, (i <= n)%nat -> exists g, is_col (nth i xv (vzero 0)) m g /\
         within m (fun l => g l - y l (nth i tv 0)) (C * (delta + h_0 ctl ^ p))).
