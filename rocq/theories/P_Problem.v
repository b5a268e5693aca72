(** Property theorems C84: the example problems shipped with the ODE solvers.

    Reading guide.  [col3 a b c], [col2 a b] are column vectors given by their components; [solves3 f y1 y2 y3 x]
    says that the functions y1, y2, y3 satisfy the differential equation with right-hand side f at x
    (Problem_spec.v).  [eu_i1 p], [eu_i2 p], [eu_i3 p] are the moments of inertia. *)
From Coq Require Import Arith List Bool ZArith Reals Lra Lia.
From Coquelicot Require Import Coquelicot.
From Verif Require Import Outcome Scalar Matrix_model Vector_model Ode_model Elem_model Problem_model Problem_spec Matrix_spec Matrix_proofs Vector_proofs RealOps Problem_proofs.
Import ListNotations.
Local Open Scope R_scope.

(** A rigid body with moments 1, 1, 2, and the shipped default on the reals. *)
Definition top : euler R := mkEuler 1 1 2 (0, 1) (col3 1 0 1).

(** * C84 *)

(** The explicit and the implicit form are the same function, for every element type and input. *)
Theorem C84_euler_same : forall (T : Type) (O : Ops T) (E : EOps T) (p : euler T) x y, euler_func p x y = euler_func_implicit p x y.
Proof. intros. exact (euler_same p x y). Qed.
Print Assumptions C84_euler_same.

(** The right-hand side is the documented one; the force f is sin(x)^2/4 on [3 pi, 4 pi] and 0 elsewhere. *)
Theorem C84_euler_rhs : forall (p : euler R) x a b c, exists f,
  euler_func p x (col3 a b c) =
    Ret (col3 ((eu_i2 p - eu_i3 p) / eu_i1 p * (b * c)) ((eu_i3 p - eu_i1 p) / eu_i2 p * (c * a)) ((eu_i1 p - eu_i2 p) / eu_i3 p * (a * b) + f)) /\
  (3 * PI <= x <= 4 * PI -> f = (sin x)^2 / 4) /\ (x < 3 * PI \/ 4 * PI < x -> f = 0).
Proof.
  intros p x a b c. exists (euler_force x). split; [exact (euler_func_col p x a b c)|]. split; [exact (force_on x)|exact (force_off x)].
Qed.
Print Assumptions C84_euler_rhs.
Example C84_euler_rhs_ex : exists x, 3 * PI <= x <= 4 * PI.
Proof. exists (3 * PI). pose proof PI_RGT_0. lra. Qed.

(** The right-hand side depends continuously on x: every component, although the force is defined piecewise. *)
Theorem C84_euler_continuous : forall (p : euler R) a b c, exists F,
  (forall x, exists w, euler_func p x (col3 a b c) = Ret w /\ is_col w 3 (F x)) /\ forall i x, (i < 3)%nat -> continuous (fun x => F x i) x.
Proof. exact euler_continuous. Qed.
Print Assumptions C84_euler_continuous.

(** The Jacobian returned is the matrix of partial derivatives of the implicit form. *)
Theorem C84_euler_jacobian : forall (p : euler R) (x : R),
  exists F, (forall a b c, exists w, euler_func_implicit p x (col3 a b c) = Ret w /\ is_col w 3 (F a b c)) /\
  forall a b c, exists J j, euler_jacobian p x (col3 a b c) = Ret J /\ is_mat J 3 3 j /\
    forall i, (i < 3)%nat -> is_derive (fun t => F t b c i) a (j i 0%nat) /\ is_derive (fun t => F a t c i) b (j i 1%nat) /\ is_derive (fun t => F a b t i) c (j i 2%nat).
Proof. exact euler_jac_ok. Qed.
Print Assumptions C84_euler_jacobian.

(** Energy and squared angular momentum of every solution: balance with the force, conserved without. *)
Theorem C84_euler_balance : forall p y1 y2 y3 x, eu_i1 p <> 0 -> eu_i2 p <> 0 -> eu_i3 p <> 0 -> solves3 (euler_func p) y1 y2 y3 x ->
  is_derive (fun x => eu_i1 p * (y1 x)^2 + eu_i2 p * (y2 x)^2 + eu_i3 p * (y3 x)^2) x (2 * eu_i3 p * y3 x * euler_force x) /\
  is_derive (fun x => (eu_i1 p * y1 x)^2 + (eu_i2 p * y2 x)^2 + (eu_i3 p * y3 x)^2) x (2 * (eu_i3 p)^2 * y3 x * euler_force x).
Proof. exact euler_balance. Qed.
Print Assumptions C84_euler_balance.
Theorem C84_euler_conserved : forall p y1 y2 y3 a b, eu_i1 p <> 0 -> eu_i2 p <> 0 -> eu_i3 p <> 0 -> a <= b -> (b < 3 * PI \/ 4 * PI < a) ->
  (forall x, a <= x <= b -> solves3 (euler_func p) y1 y2 y3 x) ->
  eu_i1 p * (y1 b)^2 + eu_i2 p * (y2 b)^2 + eu_i3 p * (y3 b)^2 = eu_i1 p * (y1 a)^2 + eu_i2 p * (y2 a)^2 + eu_i3 p * (y3 a)^2 /\
  (eu_i1 p * y1 b)^2 + (eu_i2 p * y2 b)^2 + (eu_i3 p * y3 b)^2 = (eu_i1 p * y1 a)^2 + (eu_i2 p * y2 a)^2 + (eu_i3 p * y3 a)^2.
Proof. exact euler_conserved. Qed.
Print Assumptions C84_euler_conserved.
(** The symmetric top has the solution (cos x, sin x, 1) before the force sets in. *)
Example C84_euler_conserved_ex : forall x, 0 <= x <= 1 -> solves3 (euler_func top) cos sin (fun _ => 1) x.
Proof.
  intros x Hx. pose proof PI2_1 as P. eexists _, _, _. split; [apply euler_func_col|]. rewrite force_off by lra.
  cbn [eu_i1 eu_i2 eu_i3 top]. unfold mul, div, sub, add, R_ops. split; [|split]; (auto_derive; [exact I|field]).
Qed.

(** The shipped data. *)
Theorem C84_defaults : exists p q, @euler_default R R_ops = Ret p /\ eu_i1 p = 1 / 2 /\ eu_i2 p = 2 /\ eu_i3 p = 3 /\
    euler_time_span p = (0, 20) /\ euler_init_cond p = col3 1 0 (9 / 10) /\
  @vdp_default R R_ops = Ret q /\ vdp_eps q = 1 / 10 /\ vdp_time_span q = (0, 30) /\ vdp_init_cond q = col2 1 0.
Proof. exact defaults_ok. Qed.
Print Assumptions C84_defaults.

(** Van der Pol: Jacobian and energy. *)
Theorem C84_vdp_jacobian : forall (p : vanderpol R) (x : R),
  exists F, (forall a b, exists w, vdp_func p x (col2 a b) = Ret w /\ is_col w 2 (F a b)) /\
  forall a b, exists J j, vdp_jacobian p x (col2 a b) = Ret J /\ is_mat J 2 2 j /\
    forall i, (i < 2)%nat -> is_derive (fun t => F t b i) a (j i 0%nat) /\ is_derive (fun t => F a t i) b (j i 1%nat).
Proof. exact vdp_jac_ok. Qed.
Print Assumptions C84_vdp_jacobian.
Theorem C84_vdp_balance : forall p y1 y2 x, solves2 (vdp_func p) y1 y2 x ->
  is_derive (fun x => (y1 x)^2 + (y2 x)^2) x (2 * vdp_eps p * (1 - (y1 x)^2) * (y2 x)^2).
Proof. exact vdp_balance. Qed.
Print Assumptions C84_vdp_balance.
(** Without damping the harmonic oscillation is a solution. *)
Example C84_vdp_balance_ex : forall x, solves2 (vdp_func (mkVdp 0 (0, 1) (col2 1 0))) cos (fun x => - sin x) x.
Proof.
  intro x. eexists _, _. split; [apply vdp_func_col|]. cbn [vdp_eps]. unfold mul, sub, one, R_ops. split; (auto_derive; [exact I|ring]).
Qed.

(** The documentation gives x2' = epsilon((1 - x1^2) x2 - x1); the code computes that only for x1 = 0 or epsilon = 1,
    so not for the shipped epsilon = 1/10 at the shipped initial condition. *)
Theorem C84_vdp_documented_iff : forall p t a b w, vdp_func p t (col2 a b) = Ret w ->
  (w = col2 b (vdp_eps p * ((1 - a^2) * b - a)) <-> a = 0 \/ vdp_eps p = 1).
Proof. intros p t a b w. exact (vdp_doc p t a b w). Qed.
Print Assumptions C84_vdp_documented_iff.
Theorem C84_vdp_documented_refuted : exists p a b, @vdp_default R R_ops = Ret p /\ vdp_init_cond p = col2 a b /\
  vdp_func p 0 (col2 a b) <> Ret (col2 b (vdp_eps p * ((1 - a^2) * b - a))).
Proof. exact vdp_doc_refuted. Qed.
Print Assumptions C84_vdp_documented_refuted.

(** Vectors with too few components panic, for every element type. *)
Theorem C84_short_panics : forall (T : Type) (O : Ops T) (E : EOps T) (y : vector T) n f, is_col y n f ->
  (forall (p : euler T) x, (n < 3)%nat -> euler_func p x y = Panic /\ euler_jacobian p x y = Panic) /\
  (forall (p : vanderpol T) x, (n < 2)%nat -> vdp_func p x y = Panic /\ vdp_jacobian p x y = Panic).
Proof. intros T O E y n f. exact (short_panics y n f). Qed.
Print Assumptions C84_short_panics.
Example C84_short_panics_ex : is_col (col2 1 2) 2 (fun i => nth i [1; 2] 0).
Proof. apply col2_is. Qed.
