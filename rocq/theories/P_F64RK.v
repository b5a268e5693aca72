(** Property theorems C98: the Runge-Kutta solvers in binary64 follow the exact-arithmetic run of the same method.

    Reading guide.  [fixed_solve h (do_step B64 f) t0 t1 init] is the solve function of a fixed-step method with the
    f64 coefficients B64 and the user's f64 code [f]; [exact_run B fR tau x0 i] (F64Ode_spec.v) is the state after i
    steps of the same program in exact arithmetic, with the real coefficients B, the exact right-hand side and the
    time points tau; [rounded_tableau B64 B A]: B64 is B up to rounding, and the coefficients of each stage add up to
    at most A in absolute value; [fixed_pairs]: the shipped tableaux; [box_evaluates f m F lo hi X eps]: f computes F
    up to eps for times in [lo, hi] and states in the box |x_l| <= X; [box_regular]: there F is bounded by K and
    Lipschitz (L in the state, Lt in time); [fval] is the real value of an f64, [uro] = 2^-53, [eta64] = 2^-1075. *)
From Coq Require Import Arith Lia List Bool ZArith Reals Lra SpecFloat.
From Flocq Require Import Core.
From Verif Require Import Outcome Scalar RealOps Matrix_model Vector_model Int_model Ode_model Matrix_spec Ode_spec OdeConv_spec Optim_spec
  F64_spec F64Flocq F64Ode_spec F64EulerEx_proofs F64RK_proofs F64RKTab_proofs F64RKEx_proofs.
Import ListNotations.
Local Open Scope R_scope.

(** * C98: every shipped fixed-step tableau is the documented real tableau rounded to f64, with A = 3 *)
Theorem C98_tableaux : Forall (fun p => rounded_tableau (fst p) (snd p) 3) fixed_pairs.
Proof. exact fixed_rounded. Qed.
Print Assumptions C98_tableaux.

(** * C98: one step in f64 and one exact step from the same state and time with the same step size *)
Theorem C98_step : forall B64 B A f fR m F lo hi X K L Lt eps w Mt t s x g xR Xg,
  rounded_tableau B64 B A ->
  rhs_total f m -> box_evaluates f m F lo hi X eps -> (forall t, computes (fR t) m m (F t)) -> box_regular m F lo hi X K L Lt ->
  0 <= L -> 0 <= Lt -> 0 <= eps -> 0 <= K -> 0 <= w -> L * w * A <= / 2 ->
  A * (K + eps) <= bpow radix2 990 -> X <= bpow radix2 1000 -> Mt + w <= bpow radix2 1000 -> 0 <= Mt ->
  let xi := uro * (X + 39 * w * (A * (K + eps))) + (33 * w + 2) * eta64 in
  let theta := uro * (Mt + 4 * w) + 2 * eta64 in
  fvalid t -> ffin t = true -> Rabs (fval t) <= Mt -> lo + w + theta <= fval t <= hi - w - theta ->
  fvalid s -> ffin s = true -> Rabs (fval s) <= w ->
  fcol x m g -> is_col xR m (fun l => fval (g l)) -> within m (fun l => fval (g l)) Xg -> 0 <= Xg -> Xg + w * (A * (K + eps)) + xi <= X ->
  exists x' g' xR' gR', do_step B64 f t x s = Ret x' /\ fcol x' m g' /\ do_step B fR (fval t) xR (fval s) = Ret xR' /\ is_col xR' m gR' /\
    within m (fun l => fval (g' l) - gR' l) (xi + 2 * w * A * (eps + Lt * theta + L * xi)).
Proof. exact rk_step_f64. Qed.
Print Assumptions C98_step.

(** * C98: a whole run; as long as the exact run stays in the box |x_l| <= XR, the i-th f64 state is finite and within
    exp(i 2 L A w) i r of the i-th exact state *)
Theorem C98_run : forall h t0 t1 M n B64 B A f fR m F lo hi X XR K L Lt eps init g0 initR,
  fvalid h -> fvalid t0 -> fvalid t1 -> ffin h = true -> ffin t0 = true -> ffin t1 = true ->
  0 < fval h -> fval t0 <= fval t1 -> Rabs (fval t0) <= M -> Rabs (fval t1) <= M -> M <= bpow radix2 1000 ->
  (fval t1 - fval t0) / fval h + 2 <= INR n -> INR n <= IZR (2 ^ 47) ->
  rounded_tableau B64 B A ->
  let w := fval h + 4 * (INR n + 1) * uro * M in
  let xi := uro * (X + 39 * w * (A * (K + eps))) + (33 * w + 2) * eta64 in
  let theta := uro * (9 / 8 * M + 4 * w) + 2 * eta64 in
  let ups := 2 * uro * M in
  let r := xi + A * K * ups + 2 * w * A * (eps + Lt * (theta + ups) + L * (xi + A * K * ups)) in
  let q := 2 * L * A * w in
  lo + 2 * w + theta <= fval t0 -> fval t1 + 2 * w + theta <= hi ->
  rhs_total f m -> box_evaluates f m F lo hi X eps -> (forall t, computes (fR t) m m (F t)) -> box_regular m F lo hi X K L Lt ->
  0 <= L -> 0 <= Lt -> 0 <= eps -> 0 <= K ->
  L * w * A <= / 2 -> A * (K + eps) <= bpow radix2 990 -> X <= bpow radix2 1000 -> 9 / 8 * M + w <= bpow radix2 1000 ->
  fcol init m g0 -> is_col initR m (fun l => fval (g0 l)) -> 0 <= XR -> 0 <= X ->
  XR + w * (A * (K + eps)) + xi + exp (INR n * q) * (INR n * r) <= X ->
  exists N tv xv, (N <= n)%nat /\ fixed_solve h (do_step B64 f) t0 t1 init = Ret (tv, xv) /\ length tv = S N /\ length xv = S N /\
    let tau k := fval (nth k tv zero) in
    ((forall i xR gR, (i < N)%nat -> exact_run B fR tau initR i = Ret xR -> is_col xR m gR -> within m gR XR) ->
     forall i, (i <= N)%nat -> exists g xR gR, fcol (nth i xv (mkMatrix 0 0 [])) m g /\
       exact_run B fR tau initR i = Ret xR /\ is_col xR m gR /\
       within m (fun l => fval (g l) - gR l) (exp (INR i * q) * (INR i * r))).
Proof. exact rk_run_f64. Qed.
Print Assumptions C98_run.

(** * C98: the exact run cannot leave the box when X0 + n w A K <= XR; for the shipped methods *)
Theorem C98_shipped : forall h t0 t1 M n B64 B f fR m F lo hi X XR K L Lt eps init g0 initR,
  fvalid h -> fvalid t0 -> fvalid t1 -> ffin h = true -> ffin t0 = true -> ffin t1 = true ->
  0 < fval h -> fval t0 <= fval t1 -> Rabs (fval t0) <= M -> Rabs (fval t1) <= M -> M <= bpow radix2 1000 ->
  (fval t1 - fval t0) / fval h + 2 <= INR n -> INR n <= IZR (2 ^ 47) ->
  In (B64, B) fixed_pairs ->
  let A := 3 in
  let w := fval h + 4 * (INR n + 1) * uro * M in
  let xi := uro * (X + 39 * w * (A * (K + eps))) + (33 * w + 2) * eta64 in
  let theta := uro * (9 / 8 * M + 4 * w) + 2 * eta64 in
  let ups := 2 * uro * M in
  let r := xi + A * K * ups + 2 * w * A * (eps + Lt * (theta + ups) + L * (xi + A * K * ups)) in
  let q := 2 * L * A * w in
  lo + 2 * w + theta <= fval t0 -> fval t1 + 2 * w + theta <= hi ->
  rhs_total f m -> box_evaluates f m F lo hi X eps -> (forall t, computes (fR t) m m (F t)) -> box_regular m F lo hi X K L Lt ->
  0 <= L -> 0 <= Lt -> 0 <= eps -> 0 <= K ->
  L * w * A <= / 2 -> A * (K + eps) <= bpow radix2 990 -> X <= bpow radix2 1000 -> 9 / 8 * M + w <= bpow radix2 1000 ->
  fcol init m g0 -> is_col initR m (fun l => fval (g0 l)) -> 0 <= XR -> 0 <= X ->
  XR + w * (A * (K + eps)) + xi + exp (INR n * q) * (INR n * r) <= X ->
  forall X0, within m (fun l => fval (g0 l)) X0 -> X0 + INR n * (w * (A * K)) <= XR ->
  exists N tv xv, (N <= n)%nat /\ fixed_solve h (do_step B64 f) t0 t1 init = Ret (tv, xv) /\ length tv = S N /\ length xv = S N /\
    forall i, (i <= N)%nat -> exists g xR gR, fcol (nth i xv (mkMatrix 0 0 [])) m g /\
      exact_run B fR (fun k => fval (nth k tv zero)) initR i = Ret xR /\ is_col xR m gR /\
      within m (fun l => fval (g l) - gR l) (exp (INR i * q) * (INR i * r)).
Proof. exact rk_shipped. Qed.
Print Assumptions C98_shipped.

(** RungeKutta4 on x' = -x, x(0) = 1, over [0, 1/8] with h = 2^-10: rounding changes no state by more than 1e-12. *)
Example C98_example : exists N tv xv, (N <= 130)%nat /\
  fixed_solve (decay_h : f64) (do_step rungekutta4 (fun _ x => Ret (vneg x))) zero decay_end decay_init = Ret (tv, xv) /\
  length tv = S N /\ length xv = S N /\
  forall i, (i <= N)%nat -> exists g xR gR, fcol (nth i xv (mkMatrix 0 0 [])) 1 g /\
    exact_run rungekutta4 (fun _ x => Ret (vneg x)) (fun k => fval (nth k tv zero)) (mkMatrix 1 1 [1]) i = Ret xR /\ is_col xR 1 gR /\
    Rabs (fval (g 0%nat) - gR 0%nat) <= / 10 ^ 12.
Proof. exact decay_rk4. Qed.
