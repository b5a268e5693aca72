(** Model of src/analysis/newton_raphson.rs, src/analysis/differential_equation/ordinary/implicit_euler.rs,
    the optimisers of src/optimization and [Matrix::pinv].  Definitions only. *)
From Coq Require Import Arith List Bool ZArith.
From Verif Require Import Outcome Scalar RealOps Matrix_model Transpose_model Vector_model LU_model Decomp_model Ode_model.
Import ListNotations.
Local Open Scope nat_scope.

Section Optim.
Context {T : Type} {O : Ops T} {P : POps T}.
Local Open Scope sc_scope.

(** [Function<Vector<T>, Codomain = Vector<T>>] and [Jacobian<T>] (src/analysis/function.rs, src/analysis/jacobian.rs), [Optim<T>]
    (src/optimization/optim.rs:6-25): user code, so any function that may panic. *)
Definition vfun := vector T -> outcome (vector T).
(** [Jacobian<T>] (src/analysis/jacobian.rs). *)
Definition mfun := vector T -> outcome (matrix T).

(** ** [NewtonRaphson::find_root]: src/analysis/newton_raphson.rs:47-70. *)
Fixpoint find_root (iters : nat) (tol : T) (func : vfun) (jac : mfun) (x : vector T)
  : outcome (result (vector T)) :=
  match iters with
  | 0%nat => Ret Err
  | S iters =>
      let! func_x := func x in
      let! jacobian_x := jac x in
      let! s := solve_vec jacobian_x func_x in
      let! b := runwrap s in
      let! x_current := vsub x b in
      let! diff := vsub x x_current in
      let! nrm := vp_norm diff two in
      if ltb nrm tol then Ret (Ok x) else find_root iters tol func jac x_current
  end.

(** ** Implicit Euler *)

(** [ImplicitEulerHelper::eval]: src/analysis/differential_equation/ordinary/implicit_euler.rs:185-189. *)
Definition ie_eval (f : rhs) (t : T) (x : vector T) (h : T) (z : vector T) : outcome (vector T) :=
  let! fz := f t z in
  let! s := vadd x (vmul_scalar fz h) in
  vsub s z.

(** [ImplicitEulerHelper::jacobian]: src/analysis/differential_equation/ordinary/implicit_euler.rs:198-204. *)
Definition ie_jac (jac : T -> vector T -> outcome (matrix T)) (t h : T) (z : vector T) : outcome (matrix T) :=
  let! j := jac t z in
  let! one_m := mone (rows z) in
  msub (mmul_scalar j h) one_m.

(** [ImplicitEuler::do_step]: src/analysis/differential_equation/ordinary/implicit_euler.rs:133-141; [tol] and [iters] are those of the root
    finder, 100 and 1e-8 (line 111). *)
Definition ie_step (iters : nat) (tol : T) (f : rhs) (jac : T -> vector T -> outcome (matrix T))
  (t_n : T) (x_n : vector T) (h : T) : outcome (vector T) :=
  let t := t_n + h in
  let! r := find_root iters tol (ie_eval f t x_n h) (ie_jac jac t h) x_n in
  runwrap r.
(** src/analysis/differential_equation/ordinary/implicit_euler.rs:111: iteration limit. *)
Definition ie_iters : nat := 100%nat.
(** src/analysis/differential_equation/ordinary/implicit_euler.rs:111: tolerance. *)
Definition ie_tol : T := lit 1 100000000.

(** ** Gradient descent *)

(** [Gradient::new]: src/optimization/gradient.rs:62-67. *)
Definition gradient_new (sigma : T) (iters : nat) : outcome (T * nat) :=
  if leb sigma 1 && ltb 0 sigma then if (0 <? iters)%nat then Ret (sigma, iters) else Panic else Panic.

(** [*func.eval(&x).get(0)]. *)
Definition eval0 (func : vfun) (x : vector T) : outcome T :=
  let! y := func x in vvget y 0.

(** [func.jacobian(&x).get_row(0).transpose()]: src/optimization/gradient.rs:80, src/optimization/newton.rs:84. *)
Definition grad_at (jac : mfun) (x : vector T) : outcome (vector T) :=
  let! j := jac x in
  let! r := mget_row j 0 in
  vtranspose r.

(** The backtracking loop: src/optimization/gradient.rs:84-98; [None] when the fuel is exhausted. *)
Fixpoint grad_search (fuel : nat) (sigma : T) (func : vfun) (x anti_grad : vector T) (alpha : T)
  : outcome (option T) :=
  match fuel with
  | 0%nat => Ret None
  | S fuel =>
      let anti_grad_alpha := vmul_scalar anti_grad alpha in
      let! r := vadd x anti_grad_alpha in
      let! f_r := eval0 func r in
      let! d := vdotp anti_grad_alpha anti_grad in
      let b := sigma * d in
      let! f_x := eval0 func x in
      if leb f_r (f_x - b) then Ret (Some alpha)
      else grad_search fuel sigma func x anti_grad (alpha / two)
  end.

(** [Gradient::minimize]: src/optimization/gradient.rs:72-103; every line search has the same fuel. *)
Fixpoint grad_min (iters fuel : nat) (sigma : T) (func : vfun) (jac : mfun) (x : vector T)
  : outcome (option (vector T)) :=
  match iters with
  | 0%nat => Ret (Some x)
  | S iters =>
      let! g := grad_at jac x in
      let anti_grad := vneg g in
      let! a := grad_search fuel sigma func x anti_grad 1 in
      match a with
      | None => Ret None
      | Some alpha =>
          let! x := vadd x (vmul_scalar anti_grad alpha) in
          grad_min iters fuel sigma func jac x
      end
  end.

(** ** Newton's method *)

(** The search direction: src/optimization/newton.rs:82-108. *)
Definition newton_dir (rho : T) (hess : mfun) (x grad : vector T) : outcome (vector T) :=
  let! hx := hess x in
  let! s := solve_vec hx (vneg grad) in
  match s with
  | Ok d =>
      let! gg := vdotp grad grad in
      let! gd := vdotp grad d in
      if leb gd (- rho * gg) then Ret d else Ret (vneg grad)
  | Err => Ret (vneg grad)
  end.

(** The backtracking loop: src/optimization/newton.rs:112-121, entered with the trial value already computed. *)
Fixpoint newton_search (fuel : nat) (sigma : T) (func : vfun) (x d : vector T) (f_x temp alpha f_r : T)
  : outcome (option T) :=
  if ltb (f_x + temp * (sigma * alpha)) f_r then
    match fuel with
    | 0%nat => Ret None
    | S fuel =>
        let alpha := alpha / two in
        let! r := vadd x (vmul_scalar d alpha) in
        let! f_r := eval0 func r in
        newton_search fuel sigma func x d f_x temp alpha f_r
    end
  else Ret (Some alpha).

(** [Newton::minimize]: src/optimization/newton.rs:77-128. In the source the Hessian is evaluated before the
    gradient. *)
Fixpoint newton_min (iters fuel : nat) (sigma rho : T) (func : vfun) (jac hess : mfun) (x : vector T)
  : outcome (option (vector T)) :=
  match iters with
  | 0%nat => Ret (Some x)
  | S iters =>
      let! grad := grad_at jac x in
      let! d := newton_dir rho hess x grad in
      let! r := vadd x (vmul_scalar d 1) in
      let! f_r := eval0 func r in
      let! f_x := eval0 func x in
      let! temp := vdotp grad d in
      let! a := newton_search fuel sigma func x d f_x temp 1 f_r in
      match a with
      | None => Ret None
      | Some alpha =>
          let! x := vadd x (vmul_scalar d alpha) in
          newton_min iters fuel sigma rho func jac hess x
      end
  end.

(** ** Conjugate gradients *)

(** The loop of [ConjugateGradient::minimize]: src/optimization/conjugategradient.rs:136-159, state (x, d, r). *)
Fixpoint cg_loop (iters : nat) (epsilon : T) (jac : mfun) (x d r : vector T) : outcome (vector T) :=
  match iters with
  | 0%nat => Ret x
  | S iters =>
      let! jacobian := jac x in
      let! dt := vtranspose d in
      let! temp := vmul_mat dt jacobian in
      let! rr := vdotp r r in
      let! tt := vtranspose temp in
      let! td := vdotp tt d in
      let alpha := rr / td in
      let! x := vadd x (vmul_scalar d alpha) in
      let! jd := mmul_vec jacobian d in
      let! r1 := vsub r (vmul_scalar jd alpha) in
      let! r1r1 := vdotp r1 r1 in
      let beta := r1r1 / rr in
      let! d := vadd r1 (vmul_scalar d beta) in
      if ltb (tpow r1r1 half) epsilon then Ret x
      else cg_loop iters epsilon jac x d r1
  end.

(** [ConjugateGradient::minimize]: src/optimization/conjugategradient.rs:128-162. *)
Definition cg_min (iters : nat) (epsilon : T) (func : vfun) (jac : mfun) (x0 : vector T) : outcome (vector T) :=
  let! d := func x0 in
  cg_loop iters epsilon jac x0 d d.

(** ** Levenberg-Marquardt *)

(** The damped step [d_n] at [x] and the gain ratio: src/optimization/levenbergmarquardt.rs:71-90. *)
Definition lm_trial (func : vfun) (jac : mfun) (x : vector T) (mu : T) : outcome (vector T * T) :=
  let! j := jac x in
  let! jt := mtranspose j in
  let! f_x := func x in
  let! jtf := mmul_vec jt f_x in
  let p := vneg jtf in
  let! jtj := mmul jt j in
  let! one_n := mone (cols j) in
  let! left := madd jtj (mmul_scalar (mmul_scalar one_n mu) mu) in
  let! s := solve_vec left p in
  let! d := runwrap s in
  let! x1 := vadd x d in
  let! f_x1 := func x1 in
  let! ff := vdotp f_x f_x in
  let! ff1 := vdotp f_x1 f_x1 in
  let numerator := ff - ff1 in
  let! jd := mmul_vec j d in
  let! term := vadd f_x jd in
  let! tt := vdotp term term in
  let denumerator := ff - tt in
  Ret (d, numerator / denumerator).

(** The inner loop: src/optimization/levenbergmarquardt.rs:69-104. *)
Fixpoint lm_search (fuel : nat) (beta_0 beta_1 : T) (func : vfun) (jac : mfun) (x : vector T) (mu : T)
  : outcome (option (vector T * T)) :=
  match fuel with
  | 0%nat => Ret None
  | S fuel =>
      let! dr := lm_trial func jac x mu in
      let '(d, epsilon) := dr in
      if ltb epsilon beta_0 then lm_search fuel beta_0 beta_1 func jac x (mu * two)
      else if ltb beta_1 epsilon then Ret (Some (d, mu / two)) else Ret (Some (d, mu))
  end.

(** [LevenbergMarquardt::minimize]: src/optimization/levenbergmarquardt.rs:61-107. *)
Fixpoint lm_loop (iters fuel : nat) (beta_0 beta_1 : T) (func : vfun) (jac : mfun) (x : vector T) (mu : T)
  : outcome (option (vector T)) :=
  match iters with
  | 0%nat => Ret (Some x)
  | S iters =>
      let! s := lm_search fuel beta_0 beta_1 func jac x mu in
      match s with
      | None => Ret None
      | Some (d, mu) =>
          let! x := vadd x d in
          lm_loop iters fuel beta_0 beta_1 func jac x mu
      end
  end.
(** src/optimization/levenbergmarquardt.rs:61-107 (continued). *)
Definition lm_min (iters fuel : nat) (beta_0 beta_1 : T) (func : vfun) (jac : mfun) (x : vector T) :=
  lm_loop iters fuel beta_0 beta_1 func jac x half.

(** ** Gauss-Newton *)

(** [Matrix::pinv]: src/algebra/linear/matrix/matrix.rs:1016-1024. *)
Definition mpinv (A : matrix T) : outcome (matrix T) :=
  let! qr := dec_qr A in
  let r := snd qr in
  let! rt := mtranspose r in
  let! at_ := mtranspose A in
  let! x := subst_forward_mat rt at_ in
  subst_backward_mat r x.

(** [GaussNewton::minimize]: src/optimization/gaussnewton.rs:43-57. *)
Fixpoint gn_min (iters : nat) (func : vfun) (jac : mfun) (x : vector T) : outcome (vector T) :=
  match iters with
  | 0%nat => Ret x
  | S iters =>
      let! j := jac x in
      let! f_x := func x in
      let! pinv := mpinv j in
      let! delta := mmul_vec pinv f_x in
      let! x := vsub x delta in
      gn_min iters func jac x
  end.
End Optim.
