(** * Property C108: the total error of the adaptive solver in binary64

    [adapt_solve p (do_step2 B f) q fuel t0 t1 init] is the model of the adaptive solver, as for C107. Specification: [F64_spec.v]
    (f64 values), [F64Ode_spec.v] ([fcol], [box_evaluates], [box_regular], [rounded_tableau]), [F64Adapt_spec.v]
    ([embedded_pairs], [returned_method], [local_rate]) and [OdeConv_spec.v] ([smooth_solution], [lipschitz_near]). y is the
    solution of x' = F(t, x). *)
From Coq Require Import Arith List Bool Reals.
From Flocq Require Import Core.
From Verif Require Import Outcome Scalar RealOps Matrix_model Vector_model Ode_model Matrix_spec Ode_spec Optim_spec OdeConv_spec F64_spec F64Ode_spec F64Adapt_spec OdeAdapt_proofs F64EulerEx_proofs F64Adapt_proofs F64AdaptEx_proofs F64AdaptTotal_proofs F64AdaptTotalEx_proofs.
Import ListNotations.
Local Open Scope R_scope.

(** If one exact step of the returned method from a point of the solution misses it by at most D times the step size, the
    f64 state after i accepted steps is within [bound (t_i - t0) i] of the solution at the f64 time t_i: the error delta of the
    initial state, a per step for the rounding of the state, b per unit of time for the rounding of the stages and D per unit of
    time for the truncation, all amplified by at most exp(2 L A T). *)
Theorem C108_total : forall pw (p : pcontrol (T := f64)) (t0 t1 : f64) M n B64 B A f fR m F lo hi X YB K L Lt eps w D rho delta y init g0,
  f64_valued pw -> fpos (h_0 p) -> fvalid (fac p) -> fpos (fac_min p) -> fpos (fac_max p) ->
  fvalid t0 -> fvalid t1 -> ffin t0 = true -> ffin t1 = true ->
  fval t0 <= fval t1 -> Rabs (fval t0) <= M -> Rabs (fval t1) <= M -> M <= bpow radix2 1000 ->
  rounded_tableau (returned_method B64) B A ->
  let xi := uro * (X + 39 * w * (A * (K + eps))) + (33 * w + 2) * eta64 in
  let theta := uro * (9 / 8 * M + 4 * w) + 2 * eta64 in
  let ups := 2 * uro * M in
  let a := xi + A * K * ups in
  let b := 2 * A * (eps + Lt * (theta + ups) + L * a) in
  let bound T i := exp (2 * L * A * (T + INR i * ups)) * (delta + INR i * a + (b + D) * (T + INR i * ups)) in
  lo + w + theta <= fval t0 -> fval t1 + 4 * uro * M + w + theta <= hi ->
  rhs_total f m -> box_evaluates f m F lo hi X eps -> (forall t, computes (fR t) m m (F t)) -> box_regular m F lo hi X K L Lt ->
  local_rate B fR m y lo hi w D -> (forall l t, (l < m)%nat -> lo <= t <= hi -> Rabs (y l t) <= YB) ->
  0 <= L -> 0 <= Lt -> 0 <= eps -> 0 <= K -> 0 <= w -> 0 <= D -> 0 <= delta -> 0 <= YB ->
  L * w * A <= / 2 -> A * (K + eps) <= bpow radix2 990 -> X <= bpow radix2 1000 -> 9 / 8 * M + w <= bpow radix2 1000 ->
  fcol init m g0 -> within m (fun l => fval (g0 l) - y l (fval t0)) delta -> 0 <= X ->
  bound (fval t1 - fval t0 + 4 * uro * M) n <= rho -> YB + rho + w * (A * (K + eps)) + xi <= X ->
  forall ord fuel tv xv, @adapt_solve f64 F64_ops (F64_pops pw) p (do_step2 B64 f) ord fuel t0 t1 init = Ret (Some (Some (tv, xv))) ->
  (length tv <= S n)%nat ->
  let tau k := fval (nth k tv zero) in
  (forall i, (S i < length tv)%nat -> tau (S i) - tau i <= w - ups) ->
  forall i, (i < length tv)%nat -> exists g, fcol (nth i xv (mkMatrix 0 0 [])) m g /\
    within m (fun l => fval (g l) - y l (tau i)) (bound (tau i - fval t0) i).
Proof. exact adapt_total. Qed.
Print Assumptions C108_total.

(** For the shipped embedded pairs. *)
Theorem C108_shipped : forall pw (p : pcontrol (T := f64)) (t0 t1 : f64) M n B64 B A f fR m F lo hi X YB K L Lt eps w D rho delta y init g0,
  f64_valued pw -> fpos (h_0 p) -> fvalid (fac p) -> fpos (fac_min p) -> fpos (fac_max p) ->
  fvalid t0 -> fvalid t1 -> ffin t0 = true -> ffin t1 = true ->
  fval t0 <= fval t1 -> Rabs (fval t0) <= M -> Rabs (fval t1) <= M -> M <= bpow radix2 1000 ->
  In (B64, B, A) embedded_pairs ->
  let xi := uro * (X + 39 * w * (A * (K + eps))) + (33 * w + 2) * eta64 in
  let theta := uro * (9 / 8 * M + 4 * w) + 2 * eta64 in
  let ups := 2 * uro * M in
  let a := xi + A * K * ups in
  let b := 2 * A * (eps + Lt * (theta + ups) + L * a) in
  let bound T i := exp (2 * L * A * (T + INR i * ups)) * (delta + INR i * a + (b + D) * (T + INR i * ups)) in
  lo + w + theta <= fval t0 -> fval t1 + 4 * uro * M + w + theta <= hi ->
  rhs_total f m -> box_evaluates f m F lo hi X eps -> (forall t, computes (fR t) m m (F t)) -> box_regular m F lo hi X K L Lt ->
  local_rate (returned_method B) fR m y lo hi w D -> (forall l t, (l < m)%nat -> lo <= t <= hi -> Rabs (y l t) <= YB) ->
  0 <= L -> 0 <= Lt -> 0 <= eps -> 0 <= K -> 0 <= w -> 0 <= D -> 0 <= delta -> 0 <= YB ->
  L * w * A <= / 2 -> A * (K + eps) <= bpow radix2 990 -> X <= bpow radix2 1000 -> 9 / 8 * M + w <= bpow radix2 1000 ->
  fcol init m g0 -> within m (fun l => fval (g0 l) - y l (fval t0)) delta -> 0 <= X ->
  bound (fval t1 - fval t0 + 4 * uro * M) n <= rho -> YB + rho + w * (A * (K + eps)) + xi <= X ->
  forall ord fuel tv xv, @adapt_solve f64 F64_ops (F64_pops pw) p (do_step2 B64 f) ord fuel t0 t1 init = Ret (Some (Some (tv, xv))) ->
  (length tv <= S n)%nat ->
  let tau k := fval (nth k tv zero) in
  (forall i, (S i < length tv)%nat -> tau (S i) - tau i <= w - ups) ->
  forall i, (i < length tv)%nat -> exists g, fcol (nth i xv (mkMatrix 0 0 [])) m g /\
    within m (fun l => fval (g l) - y l (tau i)) (bound (tau i - fval t0) i).
Proof. exact adapt_total_shipped. Qed.
Print Assumptions C108_shipped.

(** The shipped pairs have such a D, proportional to w^min(p, 4) for step sizes up to w, where p is the order of the returned
    method, along every smooth solution. *)
Theorem C108_local_rate : forall B p p' f m F t0 t1 Y rho L, In (B, (p, p')) embedded_list \/ (B = cash_karp45 /\ p = 4%nat /\ p' = 5%nat) ->
  (forall t, computes (f t) m m (F t)) ->
  smooth_solution m F t0 t1 (p + 1) Y -> 0 < rho -> lipschitz_near m F t0 t1 (Y 0%nat) rho L ->
  ((3 <= p)%nat -> exists J, smooth_jacobian m F t0 t1 (Y 0%nat) rho (Nat.min p 4 - 2) J) ->
  exists C H, 0 <= C /\ 0 < H /\ forall w, 0 <= w <= H -> local_rate (returned_method B) f m (Y 0%nat) t0 t1 w (C * w ^ Nat.min p 4).
Proof. exact rate_order. Qed.
Print Assumptions C108_local_rate.

(** Fehlberg45 and DormandPrince, of order five: proportional to w^5, along every smooth solution at which the right-hand side
    has a second derivative in the state. *)
Theorem C108_local_rate_5 : forall B p' f m F t0 t1 Y rho L J Hs2, In (B, (5%nat, p')) embedded_list -> (forall t, computes (f t) m m (F t)) ->
  smooth_solution m F t0 t1 6 Y -> 0 < rho -> lipschitz_near m F t0 t1 (Y 0%nat) rho L ->
  smooth_jacobian m F t0 t1 (Y 0%nat) rho 3 J -> smooth_hessian m F t0 t1 (Y 0%nat) rho (J 0%nat) Hs2 ->
  exists C H, 0 <= C /\ 0 < H /\ forall w, 0 <= w <= H -> local_rate (returned_method B) f m (Y 0%nat) t0 t1 w (C * w ^ 5).
Proof. exact rate_order_5. Qed.
Print Assumptions C108_local_rate_5.

(** BogackiShampine23 with the default step control on x' = -x, x(0) = 1, over [0, 1/16], as in C107: at each of the six times
    the computed state is within 3e-6 of exp(-t). *)
Example C108_example : exists xv, length xv = 6%nat /\
  @adapt_solve f64 F64_ops (F64_pops demo_pow) pc_default (do_step2 bogacki_shampine23 (fun _ x => Ret (vneg x))) (fst bogacki_shampine23_order) 20 zero demo_stop decay_init = Ret (Some (Some (demo_times, xv))) /\
  forall i, (i < 6)%nat -> exists g, fcol (nth i xv (mkMatrix 0 0 [])) 1 g /\ Rabs (fval (g 0%nat) - exp (- fval (nth i demo_times zero))) <= 3 / 10 ^ 6.
Proof. exact decay_adaptive_total. Qed.
Print Assumptions C108_example.
