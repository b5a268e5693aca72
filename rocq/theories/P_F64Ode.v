(** Property theorems C97: total error of the explicit Euler solver in binary64, truncation and rounding together.

    Reading guide.  [fixed_solve h (do_step explicit_euler f) t0 t1 init] is ExplicitEuler::solve with the
    user's f64 code [f]; [fval] is the real value of an f64, [uro] = 2^-53, [eta64] = 2^-1075;
    [smooth_solution], [lipschitz_near], [within] (OdeConv_spec.v) describe the exact solution Y 0 of x' = F(t, x);
    [evaluates f m F lo hi y rho eps] (F64Ode_spec.v): f computes F up to eps on finite inputs near the solution;
    [fcol x m g]: the components of x are the finite f64 numbers g. *)
From Coq Require Import Arith Lia List Bool ZArith Reals Lra SpecFloat.
From Flocq Require Import Core.
From Coquelicot Require Import Coquelicot.
From Verif Require Import Outcome Scalar Matrix_model Vector_model Int_model Ode_model Matrix_spec Ode_spec OdeConv_spec
  F64_spec F64Flocq F64Err_proofs F64Grid_proofs F64Ode_spec F64Euler_proofs F64EulerEx_proofs.
Import ListNotations.
Local Open Scope R_scope.

(** * C97: ExplicitEuler::solve returns finite states, and the i-th one is within
    exp(i L w) (delta + i d) of the exact solution at the i-th returned time *)
Theorem C97_euler : forall h t0 t1 M n f m F Y rho L eps M2 X K delta init g0,
  fvalid h -> fvalid t0 -> fvalid t1 -> ffin h = true -> ffin t0 = true -> ffin t1 = true ->
  0 < fval h -> fval t0 <= fval t1 -> Rabs (fval t0) <= M -> Rabs (fval t1) <= M -> M <= bpow radix2 1000 ->
  (fval t1 - fval t0) / fval h + 2 <= INR n -> INR n <= IZR (2 ^ 47) -> (0 < m)%nat ->
  let w := fval h + 4 * (INR n + 1) * uro * M in
  let lo := fval t0 - 4 * INR n * uro * M in let hi := fval t1 + 4 * INR n * uro * M in
  let d := M2 / 2 * w ^ 2 + w * eps + uro * (2 * M * K + X + 3 * K * w) + 2 * eta64 in
  smooth_solution m F lo hi 2 Y -> lipschitz_near m F lo hi (Y 0%nat) rho L ->
  0 <= L -> 0 <= rho -> 0 <= eps -> 0 <= delta ->
  (forall l t, (l < m)%nat -> lo <= t <= hi ->
     Rabs (Y 2%nat l t) <= M2 /\ Rabs (Y 1%nat l t) + L * rho + eps <= K /\ Rabs (Y 0%nat l t) + rho <= X) ->
  K <= bpow radix2 1000 -> X + 3 * K * w <= bpow radix2 1000 ->
  rhs_total f m -> evaluates f m F lo hi (Y 0%nat) rho eps ->
  fcol init m g0 -> within m (fun l => fval (g0 l) - Y 0%nat l (fval t0)) delta ->
  exp (INR n * (L * w)) * (delta + INR n * d) <= rho ->
  exists N tv xv, (N <= n)%nat /\ fixed_solve h (do_step explicit_euler f) t0 t1 init = Ret (tv, xv) /\
    length tv = S N /\ length xv = S N /\
    forall i, (i <= N)%nat -> exists g, fcol (nth i xv (mkMatrix 0 0 [])) m g /\
      within m (fun l => fval (g l) - Y 0%nat l (fval (nth i tv zero))) (exp (INR i * (L * w)) * (delta + INR i * d)).
Proof. exact euler_f64. Qed.
Print Assumptions C97_euler.

(** x' = -x, x(0) = 1 on [0, 1] with h = 2^-10 in f64: every returned state is within 1/200 of exp(-t). *)
Example C97_example : exists N tv xv, (N <= 1026)%nat /\
  fixed_solve (decay_h : f64) (do_step explicit_euler (fun _ x => Ret (vneg x))) zero one decay_init = Ret (tv, xv) /\
  length tv = S N /\ length xv = S N /\
  forall i, (i <= N)%nat -> exists g, fcol (nth i xv (mkMatrix 0 0 [])) 1 g /\
    Rabs (fval (g 0%nat) - exp (- fval (nth i tv zero))) <= 1 / 200.
Proof. exact decay_run. Qed.
