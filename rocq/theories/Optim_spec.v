(** Specification vocabulary for root finding and optimisation, on entry functions. *)
From Coq Require Import Arith List Bool Reals.
From Verif Require Import Outcome Scalar Matrix_model Vector_model Matrix_spec LU_model LU_spec Decomp_spec.
Local Open Scope nat_scope.

(** User code [func] computes the function F from n-vectors to m-vectors. *)
Definition computes {T} (func : vector T -> outcome (vector T)) (n m : nat) (F : (nat -> T) -> nat -> T) : Prop :=
  forall x g, is_col x n g -> exists y, func x = Ret y /\ is_col y m (F g).
(** User code [jac] computes the p x q matrix J of an n-vector. *)
Definition computes_mat {T} (jac : vector T -> outcome (matrix T)) (n p q : nat) (J : (nat -> T) -> nat -> nat -> T) : Prop :=
  forall x g, is_col x n g -> exists A, jac x = Ret A /\ is_mat A p q (J g).

(** Matrix times vector and scalar product. *)
Definition mv (n : nat) (A : nat -> nat -> R) (x : nat -> R) (i : nat) : R := sumn n (fun k => A i k * x k)%R.
Definition dot (n : nat) (x y : nat -> R) : R := sumn n (fun i => x i * y i)%R.

(** [A.solve(b)] returns the unique solution for every right-hand side. By C16 this holds when the
    LU decomposition of A has no zero pivot. *)
Definition solver_ok (A : matrix R) (n : nat) (f : nat -> nat -> R) : Prop :=
  forall b g, is_col b n g -> exists w x, solve_vec A b = Ret (Ok w) /\ is_col w n x /\
    (forall i, i < n -> mv n f x i = g i) /\
    (forall y, (forall i, i < n -> mv n f y i = g i) -> forall i, i < n -> y i = x i).

(** k Newton steps from g0: X_(j+1) = X_j - B_j with J(X_j) B_j = F(X_j). *)
Definition newton_run (n : nat) (F : (nat -> R) -> nat -> R) (J : (nat -> R) -> nat -> nat -> R)
  (g0 : nat -> R) (k : nat) (X B : nat -> nat -> R) : Prop :=
  X 0 = g0 /\ forall j, j < k ->
    (forall i, i < n -> X (S j) i = (X j i - B j i)%R) /\
    (forall i, i < n -> mv n (J (X j)) (B j) i = F (X j) i).

(** Frobenius norm. *)
Definition frob (m n : nat) (A : nat -> nat -> R) : R := sqrt (sumn m (fun i => sumsq n (A i))).

(** k steps of the conjugate gradient method for A x = b: iterates X, residuals r, directions D. *)
Definition cg_run (n : nat) (A : nat -> nat -> R) (x0 r0 : nat -> R) (k : nat) (X r D : nat -> nat -> R) : Prop :=
  X 0 = x0 /\ r 0 = r0 /\ D 0 = r0 /\
  forall j, j < k ->
    let alpha := (sumsq n (r j) / dot n (D j) (mv n A (D j)))%R in
    X (S j) = (fun i => X j i + alpha * D j i)%R /\
    r (S j) = (fun i => r j i - alpha * mv n A (D j) i)%R /\
    D (S j) = (fun i => r (S j) i + sumsq n (r (S j)) / sumsq n (r j) * D j i)%R.

(** Gradient descent: the step 1/2^a passes the line search at g. *)
Definition armijo_ok (n : nat) (phi : (nat -> R) -> R) (grad : (nat -> R) -> nat -> R) (sigma : R) (g : nat -> R) (a : nat) : Prop :=
  (phi (fun i => g i - / 2 ^ a * grad g i) <= phi g - sigma * (/ 2 ^ a * sumsq n (grad g)))%R.
(** k steps of gradient descent, each with the largest step 1, 1/2, 1/4, .. that passes. *)
Definition descent_run (n : nat) (phi : (nat -> R) -> R) (grad : (nat -> R) -> nat -> R) (sigma : R) (g0 : nat -> R) (k : nat)
  (X : nat -> nat -> R) (a : nat -> nat) : Prop :=
  X 0 = g0 /\ forall j, j < k -> X (S j) = (fun i => X j i - / 2 ^ a j * grad (X j) i)%R /\
    armijo_ok n phi grad sigma (X j) (a j) /\ forall b, b < a j -> ~ armijo_ok n phi grad sigma (X j) b.

(** Newton's method: the step 1/2^a along D passes the line search at g. *)
Definition armijo_along (n : nat) (phi : (nat -> R) -> R) (grad : (nat -> R) -> nat -> R) (sigma : R) (g D : nat -> R) (a : nat) : Prop :=
  (phi (fun i => g i + / 2 ^ a * D i) <= phi g + sigma * / 2 ^ a * dot n (grad g) D)%R.
(** W is what [hessian.solve(-gradient)] returns at g. *)
Definition hess_solution (hess : vector R -> outcome (matrix R)) (n : nat) (grad : (nat -> R) -> nat -> R) (g W : nat -> R) : Prop :=
  exists x A v w, is_col x n g /\ hess x = Ret A /\ is_col v n (fun i => - grad g i)%R /\ solve_vec A v = Ret (Ok w) /\ is_col w n W.
(** The direction: Newton's if it descends enough, else steepest descent. *)
Definition newton_direction (hess : vector R -> outcome (matrix R)) (n : nat) (grad : (nat -> R) -> nat -> R) (rho : R) (g D : nat -> R) : Prop :=
  exists W, hess_solution hess n grad g W /\
    (((dot n (grad g) W <= - rho * sumsq n (grad g))%R /\ D = W) \/
     ((- rho * sumsq n (grad g) < dot n (grad g) W)%R /\ D = (fun i => - grad g i)%R)).

(** J^T J + mu^2 I for a p x n matrix J. *)
Definition jtj_damped (p : nat) (J : nat -> nat -> R) (mu : R) (i j : nat) : R :=
  (sumn p (fun l => J l i * J l j) + mu * mu * delta i j)%R.
