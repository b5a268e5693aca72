(** Specification vocabulary for the multistep solvers in binary64. *)
From Coq Require Import Arith List Bool Reals.
From Verif Require Import Outcome Scalar RealOps Ode_spec.
Local Open Scope R_scope.

(** z 0, .., z n are the states of the exact Adams-Bashforth method of k steps for x' = F(t, x) on the time points
    tau 0, .., tau n, with m components. The first steps use the formulas of 1, 2, .., k-1 steps. *)
Definition adams_run (F : R -> (nat -> R) -> nat -> R) (k m : nat) (tau : nat -> R) (z : nat -> nat -> R) (n : nat) : Prop :=
  forall i, (i < n)%nat -> exists beta, adams_weights (Nat.min (S i) k) beta /\
    forall l, (l < m)%nat -> z (S i) l = z i l + (tau (S i) - tau i) * sumn (Nat.min (S i) k) (fun j => beta j * F (tau (i - j)%nat) (z (i - j)%nat) l).
