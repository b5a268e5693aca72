(** Specification vocabulary for integrating differential equations in binary64. *)
From Coq Require Import Arith List Bool Reals.
From Verif Require Import Outcome Scalar RealOps Matrix_model Vector_model Matrix_spec Ode_model Ode_spec OdeConv_spec F64_spec.
Import ListNotations.
Local Open Scope R_scope.

(** The m components of x are the finite f64 numbers g. *)
Definition fcol (x : vector f64) (m : nat) (g : nat -> f64) : Prop :=
  is_col x m g /\ forall l, (l < m)%nat -> fvalid (g l) /\ ffin (g l) = true.

(** The user's f64 code f evaluates F with an absolute error of at most eps per component, at all finite
    times in [lo, hi] and all finite states within rho of the curve y. *)
Definition evaluates (f : f64 -> vector f64 -> outcome (vector f64)) (m : nat) (F : R -> (nat -> R) -> nat -> R) (lo hi : R)
  (y : nat -> R -> R) (rho eps : R) : Prop :=
  forall t x g, fvalid t -> ffin t = true -> lo <= fval t <= hi -> fcol x m g ->
    within m (fun l => fval (g l) - y l (fval t)) rho ->
    exists v k, f t x = Ret v /\ fcol v m k /\ within m (fun l => fval (k l) - F (fval t) (fun j => fval (g j)) l) eps.

(** x is the finite f64 number r up to one rounding. *)
Definition close64 (x : f64) (r : R) : Prop := fvalid x /\ ffin x = true /\ Rabs (fval x - r) <= uro * Rabs r.

(** The f64 tableau B64 is the rounded real tableau B: s <= 16 stages, nodes in [0, 1], and the absolute
    values of the coefficients of each stage add up to at most A. *)
Definition rounded_tableau (B64 : tableau f64) (B : tableau R) (A : R) : Prop :=
  let s := length (tb B) in
  length (tb B64) = s /\ (1 <= s <= 16)%nat /\
  tableau_ok (ta B64) (tb B64) (tc B64) /\ tableau_ok (ta B) (tb B) (tc B) /\
  (forall j l, (l < j < s)%nat -> close64 (a_of (ta B64) j l) (a_of (ta B) j l)) /\
  (forall j, (j < s)%nat -> close64 (b_of (tb B64) j) (b_of (tb B) j)) /\
  (forall j, (j < s)%nat -> close64 (c_of (tc B64) j) (c_of (tc B) j) /\ 0 <= c_of (tc B) j <= 1) /\
  (forall j, (j < s)%nat -> sumn j (fun l => Rabs (a_of (ta B) j l)) <= A) /\
  sumn s (fun j => Rabs (b_of (tb B) j)) <= A.

(** The user's f64 code f evaluates F up to eps at all finite times in [lo, hi] and finite states in the box |x_l| <= X. *)
Definition box_evaluates (f : f64 -> vector f64 -> outcome (vector f64)) (m : nat) (F : R -> (nat -> R) -> nat -> R) (lo hi X eps : R) : Prop :=
  forall t x g, fvalid t -> ffin t = true -> lo <= fval t <= hi -> fcol x m g -> within m (fun l => fval (g l)) X ->
    exists v k, f t x = Ret v /\ fcol v m k /\ within m (fun l => fval (k l) - F (fval t) (fun j => fval (g j)) l) eps.

(** On this box F is bounded by K and Lipschitz, with the constant L in the state and Lt in the time. *)
Definition box_regular (m : nat) (F : R -> (nat -> R) -> nat -> R) (lo hi X K L Lt : R) : Prop :=
  (forall t x, lo <= t <= hi -> within m x X -> within m (F t x) K) /\
  forall t t' x x' r, lo <= t <= hi -> lo <= t' <= hi -> within m x X -> within m x' X -> within m (fun l => x l - x' l) r ->
    within m (fun l => F t x l - F t' x' l) (Lt * Rabs (t - t') + L * r).

(** The exact-arithmetic run of the method B on the time points tau 0, tau 1, ... *)
Fixpoint exact_run (B : tableau R) (f : R -> vector R -> outcome (vector R)) (tau : nat -> R) (x0 : vector R) (i : nat) : outcome (vector R) :=
  match i with
  | 0%nat => Ret x0
  | S k => let! x := exact_run B f tau x0 k in do_step B f (tau k) x (tau (S k) - tau k)
  end.

(** The shipped fixed-step tableaux, in f64 and in exact arithmetic. *)
Definition fixed_pairs : list (tableau f64 * tableau R) :=
  [(explicit_euler, explicit_euler); (midpoint, midpoint); (heun2, heun2); (ralston2, ralston2); (heun3, heun3);
   (kutta3, kutta3); (ralston3, ralston3); (ssprk3, ssprk3); (rungekutta4, rungekutta4); (kutta38, kutta38)].

(** Started on the curve y at a time in [lo, hi], one exact step of B of any size up to w that ends in [lo, hi]
    misses y by at most d. *)
Definition local_error (B : tableau R) (f : R -> vector R -> outcome (vector R)) (m : nat) (y : nat -> R -> R) (lo hi w d : R) : Prop :=
  forall t s x, lo <= t <= hi -> lo <= t + s <= hi -> Rabs s <= w -> is_col x m (fun l => y l t) ->
    exists x' g', do_step B f t x s = Ret x' /\ is_col x' m g' /\ within m (fun l => g' l - y l (t + s)) d.
