(** Specification vocabulary for the adaptive solver in binary64. *)
From Coq Require Import Arith List Bool Reals.
From Verif Require Import Outcome Scalar RealOps Matrix_model Vector_model Matrix_spec Ode_model F64_spec.
Import ListNotations.
Local Open Scope R_scope.

(** The method whose result an embedded pair returns. *)
Definition returned_method {T} (B : tableau2 T) : tableau T := mkTableau (ta2 B) (tb2 B) (tc2 B).

(** The shipped embedded pairs, in f64 and in exact arithmetic, with a bound on the absolute coefficient sums. *)
Definition embedded_pairs : list (tableau2 f64 * tableau2 R * R) :=
  [(fehlberg12, fehlberg12, 1); (bogacki_shampine23, bogacki_shampine23, 1); (fehlberg45, fehlberg45, 18);
   (cash_karp45, cash_karp45, 7); (dormand_prince, dormand_prince, 25)].

(** powf returns f64 numbers. *)
Definition f64_valued (pw : f64 -> f64 -> f64) : Prop := forall x y, fvalid (pw x y).

(** A positive finite f64 number. *)
Definition fpos (x : f64) : Prop := fvalid x /\ ffin x = true /\ 0 < fval x.

(** The times tv and states xv of a run from (t0, init) towards t1: the times are finite, between t0 and t1 + 4 uro M, and
    never decrease; every step starts before t1, is the f64 sum of the time and some step size s >= 0, is the result of the
    method [step] for this s, and its error estimate is at most 1. *)
Definition accepted_steps (pw : f64 -> f64 -> f64) (p : pcontrol (T := f64)) (step : stepfn2 (T := f64)) (t0 t1 : f64) (M : R) (init : vector f64)
  (tv : list f64) (xv : list (vector f64)) : Prop :=
  nth 0 tv zero = t0 /\ nth 0 xv (mkMatrix 0 0 []) = init /\
  (forall i, (i < length tv)%nat -> fvalid (nth i tv zero) /\ ffin (nth i tv zero) = true /\ fval t0 <= fval (nth i tv zero) <= fval t1 + 4 * uro * M) /\
  forall i, (S i < length tv)%nat -> fval (nth i tv zero) <= fval (nth (S i) tv zero) /\ fval (nth i tv zero) < fval t1 /\
    exists s xh e, fvalid s /\ ffin s = true /\ 0 <= fval s /\ nth (S i) tv zero = add (nth i tv zero) s /\
      step (nth i tv zero) (nth i xv (mkMatrix 0 0 [])) s = Ret (nth (S i) xv (mkMatrix 0 0 []), xh) /\
      @calc_error f64 F64_ops (F64_pops pw) p (nth (S i) xv (mkMatrix 0 0 [])) xh = Ret e /\ leb e one = true.

(** One step of exact length s, 0 <= s <= w, of the method B from a point of the solution y inside [lo, hi] ends within D * s of y. *)
Definition local_rate (B : tableau R) (f : R -> vector R -> outcome (vector R)) (m : nat) (y : nat -> R -> R) (lo hi w D : R) : Prop :=
  forall t s x, lo <= t -> t + s <= hi -> 0 <= s <= w -> is_col x m (fun l => y l t) ->
    exists x' g', do_step B f t x s = Ret x' /\ is_col x' m g' /\ forall l, (l < m)%nat -> Rabs (g' l - y l (t + s)) <= D * s.
