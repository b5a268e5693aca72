(** Specification vocabulary for differential equation solvers, independent of the model's
    control flow. *)
From Coq Require Import Arith List Bool ZArith Reals.
From Verif Require Import Outcome Scalar Matrix_model Vector_model Matrix_spec Ode_model.
Import ListNotations.

Section RK.
Context {T : Type} {O : Ops T}.
Local Open Scope sc_scope.

(** Entries of a tableau: a_{jl} (l < j), b_j, and c_j with c_0 = 0. *)
Definition a_of (a : list T) (j l : nat) : T := nth (j * (j - 1) / 2 + l)%nat a 0.
Definition b_of (b : list T) (j : nat) : T := nth j b 0.
Definition c_of (c : list T) (j : nat) : T := match j with 0%nat => 0 | S j => nth j c 0 end.

(** The right-hand side returns an m-vector for every m-vector. *)
Definition rhs_total (f : T -> vector T -> outcome (vector T)) (m : nat) : Prop :=
  forall t x g, is_col x m g -> exists y k, f t x = Ret y /\ is_col y m k.

(** [K] are the stage values of an explicit Runge-Kutta step of size [h] from [(t, x)], where
    [x] has the components [g]:
    K_0 = f(t, x) and K_j = f(t + c_j h, x + (sum_(l<j) K_l a_jl) h). *)
Definition rk_stages (a c : list T) (s : nat) (f : T -> vector T -> outcome (vector T))
  (m : nat) (t : T) (x : vector T) (g : nat -> T) (h : T) (K : nat -> nat -> T) : Prop :=
  (exists k0, f t x = Ret k0 /\ is_col k0 m (K 0%nat)) /\
  forall j, (0 < j < s)%nat -> exists xj kj,
    is_col xj m (fun i => g i + sumn j (fun l => K l i * a_of a j l) * h) /\
    f (t + c_of c j * h) xj = Ret kj /\ is_col kj m (K j).

(** The number of entries of [a] and [c] an s-stage step needs. *)
Definition tableau_ok (a b c : list T) : Prop :=
  (length b * (length b - 1) / 2 <= length a)%nat /\ (length b - 1 <= length c)%nat.

(** ** Order conditions *)

(** Rooted trees. *)
Inductive tree := Node (children : list tree).

(** Number of nodes. *)
Fixpoint torder (t : tree) : nat :=
  match t with Node ts => S (fold_right (fun t n => (torder t + n)%nat) 0%nat ts) end.
(** Density: gamma(leaf) = 1, gamma([t1,..,tk]) = order * gamma(t1) * .. * gamma(tk). *)
Fixpoint tgamma (t : tree) : nat :=
  match t with Node ts => (torder t * fold_right (fun t n => tgamma t * n) 1 ts)%nat end.
(** Elementary weight of stage j: the product over the children of sum_(l<j) a_jl phi_l(child). *)
Fixpoint tphi (a : nat -> nat -> T) (t : tree) (j : nat) : T :=
  match t with
  | Node ts => fold_right (fun t p => sumn j (fun l => a j l * tphi a t l) * p) 1 ts
  end.
End RK.

(** The tableau (a, b, c) over the reals satisfies the row-sum condition and all order conditions
    of order at most [p]: sum_j b_j phi_j(t) = 1/gamma(t) for every rooted tree with at most [p]
    nodes. *)
Definition row_sums (a b c : list R) : Prop :=
  forall j, (j < length b)%nat -> c_of c j = sumn j (fun l => a_of a j l).
Definition has_order (a b c : list R) (p : nat) : Prop :=
  forall t, (torder t <= p)%nat ->
    (sumn (length b) (fun j => (b_of b j * tphi (a_of a) t j)%R) = 1 / INR (tgamma t))%R.

(** ** Grids and runs *)

(** The i-th point of the equidistant grid from [t0] with width [h], cut off at [t1]. *)
Definition grid (t0 t1 h : R) (i : nat) : R := Rmin (t0 + INR i * h) t1.

Definition increasing (l : list R) : Prop :=
  forall i, (S i < length l)%nat -> (nth i l 0 < nth (S i) l 0)%R.

(** Every state follows from its predecessor by one step of [step] over the actual width. *)
Definition follows (step : R -> vector R -> R -> outcome (vector R)) (tv : list R) (xv : list (vector R)) : Prop :=
  forall i, (S i < length tv)%nat ->
    step (nth i tv 0%R) (nth i xv (vzero 0)) (nth (S i) tv 0 - nth i tv 0)%R = Ret (nth (S i) xv (vzero 0)).

(** Every state is the first component of an embedded step over the actual width whose error
    measure, computed by [err] from the two solutions, is at most one. *)
Definition follows_within (step : R -> vector R -> R -> outcome (vector R * vector R))
  (err : vector R -> vector R -> outcome R) (tv : list R) (xv : list (vector R)) : Prop :=
  forall i, (S i < length tv)%nat -> exists xhat e,
    step (nth i tv 0%R) (nth i xv (vzero 0)) (nth (S i) tv 0 - nth i tv 0)%R = Ret (nth (S i) xv (vzero 0), xhat) /\
    err (nth (S i) xv (vzero 0)) xhat = Ret e /\ (e <= 1)%R.

(** The weights of the j-step Adams-Bashforth formula: the ones that integrate the polynomials of
    degree below j exactly from 0 to 1 using the points 0, -1, .., -(j-1). *)
Definition adams_weights (j : nat) (beta : nat -> R) : Prop :=
  forall q, (q < j)%nat -> (sumn j (fun l => beta l * (- INR l) ^ q) = 1 / INR (S q))%R.

(** The shipped explicit methods with the order each reports, except Ralston4 and Cash-Karp. *)
Definition fixed_list : list (tableau R * nat) :=
  [(explicit_euler, explicit_euler_order); (midpoint, midpoint_order); (heun2, heun2_order);
   (ralston2, ralston2_order); (heun3, heun3_order); (kutta3, kutta3_order); (ralston3, ralston3_order);
   (ssprk3, ssprk3_order); (rungekutta4, rungekutta4_order); (kutta38, kutta38_order)].

(** The shipped embedded pairs with [order()]: (order of the returned solution, order of the
    comparison solution). *)
Definition embedded_list : list (tableau2 R * (nat * nat)) :=
  [(fehlberg12, fehlberg12_order); (bogacki_shampine23, bogacki_shampine23_order);
   (fehlberg45, fehlberg45_order); (dormand_prince, dormand_prince_order)].

(** A^k g. *)
Fixpoint mat_iter (m : nat) (A : nat -> nat -> R) (k : nat) (g : nat -> R) (i : nat) : R :=
  match k with O => g i | S k => sumn m (fun l => (A i l * mat_iter m A k g l)%R) end.


(** The weights of the k-step backward differentiation formula: sum_l alpha_l p(-l) = p'(0) for the
    polynomials p of degree at most k. *)
Definition bdf_weights (k : nat) (alpha : nat -> R) : Prop :=
  forall q, (q <= k)%nat ->
    (sumn (S k) (fun l => alpha l * (- INR l) ^ q) = if Nat.eqb q 1 then 1 else 0)%R.
