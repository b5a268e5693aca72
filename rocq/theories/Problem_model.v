(** Model of the example problems shipped with the ODE solvers:
    src/analysis/differential_equation/ordinary/problem.rs. *)
From Coq Require Import Arith List Bool ZArith.
From Verif Require Import Outcome Scalar Matrix_model Vector_model Ode_model Elem_model.
Import ListNotations.

Section Model.
Context {T : Type} {O : Ops T} {E : EOps T}.
Local Open Scope sc_scope.

(** src/analysis/differential_equation/ordinary/problem.rs:17-25 [Euler]. *)
Record euler := mkEuler { eu_i1 : T; eu_i2 : T; eu_i3 : T; eu_span : T * T; eu_init : vector T }.

(** src/analysis/differential_equation/ordinary/problem.rs:27-37 [Euler::default]. *)
Definition euler_default : outcome euler :=
  let! v := vector_macro_column [lit 1 1; lit 0 1; lit 9 10] in
  Ret (mkEuler (lit 1 2) (lit 2 1) (lit 3 1) (lit 0 1, lit 20 1) v).

(** src/analysis/differential_equation/ordinary/problem.rs:46-54 and 79-87: the exterior force; [x >= a] is [a <= x]. *)
Definition euler_force (x : T) : T :=
  if leb (lit 3 1 * tpi) x && leb x (lit 4 1 * tpi) then lit 1 4 * tsin x * tsin x else 0.

(** src/analysis/differential_equation/ordinary/problem.rs:41-57 [ExplicitODE::func for Euler]. *)
Definition euler_func (p : euler) (x : T) (y : vector T) : outcome (vector T) :=
  let! a1 := vvget y 1%nat in
  let! a2 := vvget y 2%nat in
  let y1s := ((eu_i2 p - eu_i3 p) / eu_i1 p) * (a1 * a2) in
  let! b2 := vvget y 2%nat in
  let! b0 := vvget y 0%nat in
  let y2s := ((eu_i3 p - eu_i1 p) / eu_i2 p) * (b2 * b0) in
  let f := euler_force x in
  let! c0 := vvget y 0%nat in
  let! c1 := vvget y 1%nat in
  let y3s := ((eu_i1 p - eu_i2 p) / eu_i3 p) * (c0 * c1) + f in
  vector_macro_column [y1s; y2s; y3s].

(** src/analysis/differential_equation/ordinary/problem.rs:72-92 [ImplicitODE::func for Euler]. *)
Definition euler_func_implicit (p : euler) (x : T) (y : vector T) : outcome (vector T) :=
  let a := (eu_i2 p - eu_i3 p) / eu_i1 p in
  let b := (eu_i3 p - eu_i1 p) / eu_i2 p in
  let c := (eu_i1 p - eu_i2 p) / eu_i3 p in
  let! a1 := vvget y 1%nat in
  let! a2 := vvget y 2%nat in
  let y1s := a * (a1 * a2) in
  let! b2 := vvget y 2%nat in
  let! b0 := vvget y 0%nat in
  let y2s := b * (b2 * b0) in
  let f := euler_force x in
  let! c0 := vvget y 0%nat in
  let! c1 := vvget y 1%nat in
  let y3s := c * (c0 * c1) + f in
  vector_macro_column [y1s; y2s; y3s].

(** src/analysis/differential_equation/ordinary/problem.rs:94-103 [ImplicitODE::jacobian for Euler]. *)
Definition euler_jacobian (p : euler) (x : T) (y : vector T) : outcome (matrix T) :=
  let a := (eu_i2 p - eu_i3 p) / eu_i1 p in
  let b := (eu_i3 p - eu_i1 p) / eu_i2 p in
  let c := (eu_i1 p - eu_i2 p) / eu_i3 p in
  let! y2 := vvget y 2%nat in
  let! y1 := vvget y 1%nat in
  let! y2' := vvget y 2%nat in
  let! y0 := vvget y 0%nat in
  let! y1' := vvget y 1%nat in
  let! y0' := vvget y 0%nat in
  matrix_macro [[0; a * y2; a * y1]; [b * y2'; 0; b * y0]; [c * y1'; c * y0'; 0]].

(** src/analysis/differential_equation/ordinary/problem.rs:59-67 and 105-113 [time_span], [init_cond] for Euler. *)
Definition euler_time_span (p : euler) : T * T := eu_span p.
(** src/analysis/differential_equation/ordinary/problem.rs:64-67, 110-113 (continued). *)
Definition euler_init_cond (p : euler) : vector T := eu_init p.

(** src/analysis/differential_equation/ordinary/problem.rs:127-133 [VanDerPolOsc]. *)
Record vanderpol := mkVdp { vdp_eps : T; vdp_span : T * T; vdp_init : vector T }.

(** src/analysis/differential_equation/ordinary/problem.rs:135-143 [VanDerPolOsc::default]. *)
Definition vdp_default : outcome vanderpol :=
  let! v := vector_macro_column [lit 1 1; lit 0 1] in
  Ret (mkVdp (lit 1 10) (lit 0 1, lit 30 1) v).

(** src/analysis/differential_equation/ordinary/problem.rs:149-154 [func for VanDerPolOsc]. *)
Definition vdp_func (p : vanderpol) (t : T) (x : vector T) : outcome (vector T) :=
  let! x1 := vvget x 0%nat in
  let! x2 := vvget x 1%nat in
  vector_macro_column [x2; vdp_eps p * (1 - x1 * x1) * x2 - x1].

(** src/analysis/differential_equation/ordinary/problem.rs:156-162 [jacobian for VanDerPolOsc]. *)
Definition vdp_jacobian (p : vanderpol) (t : T) (x : vector T) : outcome (matrix T) :=
  let! x1 := vvget x 0%nat in
  let! x2 := vvget x 1%nat in
  matrix_macro [[0; 1]; [(- lit 2 1) * vdp_eps p * x1 * x2 - 1; (1 - x1 * x1) * vdp_eps p]].

(** src/analysis/differential_equation/ordinary/problem.rs:164-172 [time_span], [init_cond] for VanDerPolOsc. *)
Definition vdp_time_span (p : vanderpol) : T * T := vdp_span p.
(** src/analysis/differential_equation/ordinary/problem.rs:169-172 (continued). *)
Definition vdp_init_cond (p : vanderpol) : vector T := vdp_init p.
End Model.
Arguments euler : clear implicits.
Arguments vanderpol : clear implicits.
