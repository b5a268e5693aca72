(** * Property C106: the Adams-Bashforth solver in binary64

    [ab_solve f h t1 fuel k t0 init] is the model of the solver with step size h and k steps; it returns [Ret (Some (tv, xv))],
    the times and states, and [Ret None] when [fuel] iterations of its loop do not suffice. Specification: [F64_spec.v] (f64
    values), [F64Ode_spec.v] ([fcol], [box_evaluates], [box_regular]), [OdeConv_spec.v] ([within]) and [F64AB_spec.v]
    ([adams_run], the exact method on given time points). *)
From Coq Require Import Arith List Bool Reals.
From Flocq Require Import Core.
From Verif Require Import Outcome Scalar RealOps Matrix_model Vector_model Ode_model Matrix_spec Ode_spec Optim_spec OdeConv_spec F64_spec F64Ode_spec F64AB_spec OdeMulti_proofs F64EulerEx_proofs F64AB_proofs F64ABEx_proofs.
Import ListNotations.
Local Open Scope R_scope.

(** Whatever the f64 solver returns, its states follow the exact Adams-Bashforth recurrence on its own time points, as long
    as that stays within XR: after i steps every component is finite and off by at most exp(i q) i r. The times are
    t, t + min(h, t1 - t), .. in f64. *)
Theorem C106_run : forall (h t0 t1 : f64) M n k f m F lo hi X XR K L Lt eps init g0,
  fvalid h -> fvalid t0 -> fvalid t1 -> ffin h = true -> ffin t0 = true -> ffin t1 = true ->
  0 < fval h -> fval t0 <= fval t1 -> Rabs (fval t0) <= M -> Rabs (fval t1) <= M -> M <= bpow radix2 1000 ->
  INR n <= IZR (2 ^ 47) -> (1 <= k <= 5)%nat ->
  let w := fval h + 4 * (INR n + 1) * uro * M in
  let P := 13 * (K + eps) in
  let xi := uro * (X + 39 * w * P) + (33 * w + 2) * eta64 in
  let r := xi + 13 * K * (2 * uro * M) + w * (13 * eps) in
  let q := 13 * L * w in
  lo <= fval t0 - 4 * INR n * uro * M -> fval t1 + 4 * INR n * uro * M <= hi ->
  rhs_total f m -> box_evaluates f m F lo hi X eps -> box_regular m F lo hi X K L Lt ->
  0 <= L -> 0 <= eps -> 0 <= K -> P <= bpow radix2 990 -> X + w * P <= bpow radix2 1000 -> w <= bpow radix2 1000 ->
  fcol init m g0 -> 0 <= X -> XR + exp (INR n * q) * (INR n * r) <= X ->
  forall fuel tv xv, ab_solve f h t1 fuel k t0 init = Ret (Some (tv, xv)) -> (length tv <= S n)%nat ->
  length xv = length tv /\ (k <= length tv)%nat /\
  (forall i, (i < length tv)%nat -> nth i tv zero = Nat.iter i (fun t => add t (tmin h (sub t1 t))) t0) /\
  forall z, (forall l, (l < m)%nat -> z 0%nat l = fval (g0 l)) -> adams_run F k m (fun i => fval (nth i tv zero)) z (length tv - 1) ->
    (forall i, (S i < length tv)%nat -> within m (z i) XR) ->
    forall i, (i < length tv)%nat -> exists G, fcol (nth i xv (mkMatrix 0 0 [])) m G /\ within m (fun l => fval (G l) - z i l) (exp (INR i * q) * (INR i * r)).
Proof. exact ab_run. Qed.
Print Assumptions C106_run.

(** It returns within n iterations if the rounding of the n time points stays below 5e-11, half the solver's own tolerance
    for having reached the end. *)
Theorem C106_returns : forall (h t0 t1 : f64) M n k f m init g0,
  fvalid h -> fvalid t0 -> fvalid t1 -> ffin h = true -> ffin t0 = true -> ffin t1 = true ->
  0 < fval h -> fval t0 <= fval t1 -> Rabs (fval t0) <= M -> Rabs (fval t1) <= M -> M <= bpow radix2 1000 ->
  INR n <= IZR (2 ^ 47) -> (1 <= k <= 5)%nat -> rhs_total f m -> fcol init m g0 ->
  (fval t1 - fval t0) / fval h <= INR n -> (k - 1 <= n)%nat -> 4 * INR n * uro * M <= 5 / 100000000000 ->
  exists tv xv, (length tv <= S n)%nat /\ forall fuel, (n <= fuel)%nat -> ab_solve f h t1 fuel k t0 init = Ret (Some (tv, xv)).
Proof. exact ab_returns. Qed.
Print Assumptions C106_returns.

(** Both together; bounds on F, X0 + 13 n w K <= XR, keep the exact run in the box. *)
Theorem C106_total : forall (h t0 t1 : f64) M n k f m F lo hi X XR K L Lt eps init g0,
  fvalid h -> fvalid t0 -> fvalid t1 -> ffin h = true -> ffin t0 = true -> ffin t1 = true ->
  0 < fval h -> fval t0 <= fval t1 -> Rabs (fval t0) <= M -> Rabs (fval t1) <= M -> M <= bpow radix2 1000 ->
  INR n <= IZR (2 ^ 47) -> (1 <= k <= 5)%nat ->
  let w := fval h + 4 * (INR n + 1) * uro * M in
  let P := 13 * (K + eps) in
  let xi := uro * (X + 39 * w * P) + (33 * w + 2) * eta64 in
  let r := xi + 13 * K * (2 * uro * M) + w * (13 * eps) in
  let q := 13 * L * w in
  lo <= fval t0 - 4 * INR n * uro * M -> fval t1 + 4 * INR n * uro * M <= hi ->
  rhs_total f m -> box_evaluates f m F lo hi X eps -> box_regular m F lo hi X K L Lt ->
  0 <= L -> 0 <= eps -> 0 <= K -> P <= bpow radix2 990 -> X + w * P <= bpow radix2 1000 -> w <= bpow radix2 1000 ->
  fcol init m g0 -> 0 <= X -> XR + exp (INR n * q) * (INR n * r) <= X ->
  (fval t1 - fval t0) / fval h <= INR n -> (k - 1 <= n)%nat -> 4 * INR n * uro * M <= 5 / 100000000000 ->
  forall X0, within m (fun l => fval (g0 l)) X0 -> X0 + INR n * (w * (13 * K)) <= XR ->
  exists tv xv z, (length tv <= S n)%nat /\ length xv = length tv /\
    (forall fuel, (n <= fuel)%nat -> ab_solve f h t1 fuel k t0 init = Ret (Some (tv, xv))) /\
    (forall l, (l < m)%nat -> z 0%nat l = fval (g0 l)) /\ adams_run F k m (fun i => fval (nth i tv zero)) z (length tv - 1) /\
    forall i, (i < length tv)%nat -> exists G, fcol (nth i xv (mkMatrix 0 0 [])) m G /\ within m (fun l => fval (G l) - z i l) (exp (INR i * q) * (INR i * r)).
Proof. exact ab_shipped. Qed.
Print Assumptions C106_total.

(** The solver named BDF runs the same steps for k <= 5, so all of this holds for it as well. *)
Theorem C106_bdf : forall (h t0 t1 : f64) f fuel k init, (k <= 5)%nat -> bdf_solve f h t1 fuel k t0 init = ab_solve f h t1 fuel k t0 init.
Proof. intros h t0 t1 f fuel k init Hk. apply bdf_is_ab. exact Hk. Qed.
Print Assumptions C106_bdf.

(** On x' = -x, x(0) = 1, over [0, 1/32] with h = 2^-10, rounding moves no state by more than 1e-12, for every k. *)
Example C106_example : forall k, (1 <= k <= 5)%nat -> exists tv xv z, (length tv <= 35)%nat /\ length xv = length tv /\
  (forall fuel, (34 <= fuel)%nat -> ab_solve (fun _ x => Ret (vneg x)) (decay_h : f64) decay_stop fuel k zero decay_init = Ret (Some (tv, xv))) /\
  z 0%nat 0%nat = 1 /\ adams_run decay_F k 1 (fun i => fval (nth i tv zero)) z (length tv - 1) /\
  forall i, (i < length tv)%nat -> exists G, fcol (nth i xv (mkMatrix 0 0 [])) 1 G /\ Rabs (fval (G 0%nat) - z i 0%nat) <= / 10 ^ 12.
Proof. exact decay_ab. Qed.
