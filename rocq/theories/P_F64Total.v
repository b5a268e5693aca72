(** Property theorems C99: total error of the fixed-step Runge-Kutta solvers in binary64, truncation and rounding together.

    Reading guide.  As for C98 (P_F64RK.v): [fixed_solve h (do_step B64 f) t0 t1 init] is the solve function of a
    fixed-step method with the f64 coefficients B64 and the user's f64 code [f]; B are the exact coefficients and fR the
    exact right-hand side; [local_error B fR m y lo hi w d] (F64Ode_spec.v): one exact step of any size up to w, started
    on the curve y, misses y by at most d; [smooth_solution], [lipschitz_near], [smooth_jacobian] (OdeConv_spec.v);
    [fixed_list] (Ode_spec.v): the shipped methods with their documented orders. *)
From Coq Require Import Arith Lia List Bool ZArith Reals Lra SpecFloat.
From Flocq Require Import Core.
From Verif Require Import Outcome Scalar RealOps Matrix_model Vector_model Int_model Ode_model Matrix_spec Ode_spec OdeConv_spec Optim_spec
  F64_spec F64Flocq F64Ode_spec F64EulerEx_proofs F64RKTotal_proofs LocalError_proofs.
Import ListNotations.
Local Open Scope R_scope.

(** * C99: every returned state is finite, and the i-th one is within exp(2 i L A w) (delta + i (r + d)) of y *)
Theorem C99_total : forall h t0 t1 M n B64 B A f fR m F lo hi X YB K L Lt eps d rho delta y init g0,
  fvalid h -> fvalid t0 -> fvalid t1 -> ffin h = true -> ffin t0 = true -> ffin t1 = true ->
  0 < fval h -> fval t0 <= fval t1 -> Rabs (fval t0) <= M -> Rabs (fval t1) <= M -> M <= bpow radix2 1000 ->
  (fval t1 - fval t0) / fval h + 2 <= INR n -> INR n <= IZR (2 ^ 47) ->
  rounded_tableau B64 B A ->
  let w := fval h + 4 * (INR n + 1) * uro * M in
  let xi := uro * (X + 39 * w * (A * (K + eps))) + (33 * w + 2) * eta64 in
  let theta := uro * (9 / 8 * M + 4 * w) + 2 * eta64 in
  let ups := 2 * uro * M in
  let r := xi + A * K * ups + 2 * w * A * (eps + Lt * (theta + ups) + L * (xi + A * K * ups)) in
  let q := 2 * L * A * w in
  lo + 2 * w + theta <= fval t0 -> fval t1 + 2 * w + theta <= hi ->
  rhs_total f m -> box_evaluates f m F lo hi X eps -> (forall t, computes (fR t) m m (F t)) -> box_regular m F lo hi X K L Lt ->
  local_error B fR m y lo hi w d -> (forall l t, (l < m)%nat -> lo <= t <= hi -> Rabs (y l t) <= YB) ->
  0 <= L -> 0 <= Lt -> 0 <= eps -> 0 <= K -> 0 <= d -> 0 <= delta -> 0 <= YB ->
  L * w * A <= / 2 -> A * (K + eps) <= bpow radix2 990 -> X <= bpow radix2 1000 -> 9 / 8 * M + w <= bpow radix2 1000 ->
  fcol init m g0 -> within m (fun l => fval (g0 l) - y l (fval t0)) delta -> 0 <= X ->
  exp (INR n * q) * (delta + INR n * (r + d)) <= rho -> YB + rho + w * (A * (K + eps)) + xi <= X ->
  exists N tv xv, (N <= n)%nat /\ fixed_solve h (do_step B64 f) t0 t1 init = Ret (tv, xv) /\ length tv = S N /\ length xv = S N /\
    forall i, (i <= N)%nat -> exists g, fcol (nth i xv (mkMatrix 0 0 [])) m g /\
      within m (fun l => fval (g l) - y l (fval (nth i tv zero))) (exp (INR i * q) * (delta + INR i * (r + d))).
Proof. exact rk_total_f64. Qed.
Print Assumptions C99_total.

(** * C99: the local error of a shipped method of order p is at most C w^(p+1), for steps of either sign *)
Theorem C99_local_order : forall B p f m F t0 t1 Y rho L, In (B, p) fixed_list ->
  (forall t, computes (f t) m m (F t)) ->
  smooth_solution m F t0 t1 (p + 1) Y -> 0 < rho -> lipschitz_near m F t0 t1 (Y 0%nat) rho L ->
  ((3 <= p)%nat -> exists J, smooth_jacobian m F t0 t1 (Y 0%nat) rho (p - 2) J) ->
  exists C H, 0 <= C /\ 0 < H /\ forall w, 0 <= w <= H -> local_error B f m (Y 0%nat) t0 t1 w (C * w ^ (p + 1)).
Proof. exact local_order. Qed.
Print Assumptions C99_local_order.

(** RungeKutta4 on x' = -x, x(0) = 1, over [0, 1] with h = 2^-10 in f64: every returned state is within 1e-8 of exp(-t). *)
Example C99_example : exists N tv xv, (N <= 1026)%nat /\
  fixed_solve (decay_h : f64) (do_step rungekutta4 (fun _ x => Ret (vneg x))) zero one decay_init = Ret (tv, xv) /\
  length tv = S N /\ length xv = S N /\
  forall i, (i <= N)%nat -> exists g, fcol (nth i xv (mkMatrix 0 0 [])) 1 g /\
    Rabs (fval (g 0%nat) - exp (- fval (nth i tv zero))) <= / 10 ^ 8.
Proof. exact decay_rk4_total. Qed.
(** The explicit local error used there. *)
Example C99_local_example : local_error rungekutta4 (fun _ (x : vector R) => Ret (vneg x)) 1 (decay_Y 0) (- / 100) 2 (/ 1020) (14 / 10 ^ 16).
Proof. exact decay_local. Qed.
