(** Property theorems C113: the implicit Euler solver in f64, one equation.

    Reading guide.  [fgood a]: a is a finite f64 number, [fval a] its real value; [uro] = 2^-53.
    [evaluates_tube f F lo hi y rho eps]: for times in [lo, hi] and states within rho of the curve y the user's f64 code computes F up to eps.
    [regular_tube F J lo hi y rho B L K]: there |F| <= B, F has Lipschitz constant L and derivative J in the state, with a second order remainder K.
    [length_usable pw rho theta]: the computed length of a one-component vector is right up to a factor of two and theta.
    y is the exact solution of y' = F(t, y), y2 its second derivative.  [fixed_solve] with [ie_step] is ImplicitEuler::solve; in the crate
    iters = [ie_iters] = 100 and tol = [ie_tol] = 1e-8. *)
From Coq Require Import ZArith Arith Reals Lra Lia List SpecFloat.
From Flocq Require Import Core.
From Coquelicot Require Import Coquelicot.
From Verif Require Import Outcome Scalar RealOps Matrix_model Vector_model LU_model Ode_model Optim_model
  F64_spec F64Cplx_spec F64Newton_spec F64Impl_spec F64Err_proofs F64EulerEx_proofs F64NewtonEx_proofs F64Impl_proofs F64ImplEx_proofs.
Import ListNotations.
Local Open Scope R_scope.

(** * C113 *)
(** The solver returns, and the error at the i-th grid point is at most exp(2 i L w) (delta + i d): first order in the step size w, plus the
    tolerance of the root finder and the rounding errors, added up over the steps. *)
Theorem C113_implicit_euler : forall pw h t0 t1 M n iters tol f jac F J y y2 rho B L K eps epsj X M2 theta delta x0,
  fgood h -> fgood t0 -> fgood t1 -> 0 < fval h -> fval t0 <= fval t1 -> Rabs (fval t0) <= M -> Rabs (fval t1) <= M -> M <= bpow radix2 1000 ->
  (fval t1 - fval t0) / fval h + 2 <= INR n -> INR n <= IZR (2 ^ 47) ->
  let w := fval h + 4 * (INR n + 1) * uro * M in
  let lo := fval t0 - 4 * INR n * uro * M in let hi := fval t1 + 4 * INR n * uro * M in
  let c := 5 * (w * eps) + 60 * uro * X in
  let d := M2 * w ^ 2 + 4 * uro * M * B + 6 * (fval tol + theta) + 2 * c in
  evaluates_tube f F lo hi y rho eps -> evaluates_tube jac J lo hi y rho epsj -> regular_tube F J lo hi y rho B L K ->
  (forall t, lo <= t <= hi -> is_derive y t (F t (y t)) /\ is_derive (fun t => F t (y t)) t (y2 t) /\ Rabs (y2 t) <= M2 /\ Rabs (y t) + rho <= X) ->
  0 < rho -> 0 <= L -> 0 <= K -> 0 <= eps -> 0 <= epsj -> 0 <= theta -> 0 <= delta -> 1 <= X -> X <= bpow radix2 999 ->
  w * L <= 1 / 2 -> w * B <= rho / 4 -> w * K * rho <= 1 / 5 -> w * epsj <= 1 / 25 ->
  length_usable pw rho theta -> fgood tol -> (0 < iters)%nat -> 4 * ((1 / 2) ^ (iters - 1) * (w * B)) + 11 * c + theta < fval tol ->
  fgood x0 -> Rabs (fval x0 - y (fval t0)) <= delta ->
  exp (INR n * (2 * (L * w))) * (delta + INR n * d) <= rho / 16 ->
  exists N tv xv, (N <= n)%nat /\ fixed_solve h (@ie_step f64 F64_ops (F64_pops pw) iters tol f jac) t0 t1 (mkMatrix 1 1 [x0]) = Ret (tv, xv) /\
    length tv = S N /\ length xv = S N /\
    forall i, (i <= N)%nat -> exists a, nth i xv (mkMatrix 0 0 []) = mkMatrix 1 1 [a] /\ fgood a /\
      Rabs (fval a - y (fval (nth i tv zero))) <= exp (INR i * (2 * (L * w))) * (delta + INR i * d).
Proof. exact implicit_f64. Qed.
Print Assumptions C113_implicit_euler.
(** x' = -x on [0, 1] with the step 2^-10 and the crate's tolerance and iteration limit: every hypothesis holds, and every state is within 1/60 of exp(-t). *)
Example C113_example : exists N tv xv, (N <= 1026)%nat /\
  fixed_solve decay_h (@ie_step f64 F64_ops (F64_pops root_pow) ie_iters ie_tol (fun _ x => Ret (vneg x)) (fun _ _ => Ret (mkMatrix 1 1 [neg one]))) zero one (mkMatrix 1 1 [one]) = Ret (tv, xv) /\
  length tv = S N /\ length xv = S N /\
  forall i, (i <= N)%nat -> exists a, nth i xv (mkMatrix 0 0 []) = mkMatrix 1 1 [a] /\ fgood a /\
    Rabs (fval a - exp (- fval (nth i tv zero))) <= 1 / 60.
Proof. exact impl_decay_run. Qed.
