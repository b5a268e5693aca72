(** Property theorems C91: the time grid of the fixed-step solvers in binary64.

    Reading guide.  [fixed_solve h step t0 t1 init] is the loop of the fixed-step drivers for an arbitrary
    method [step t x h]; [fvalid], [ffin], [fval] (F64_spec.v): a binary64 datum, finite, its real value;
    [uro] = 2^-53, [eta64] = 2^-1075.  The exact grid is min(t0 + i h, t1).  [M] bounds both end points. *)
From Coq Require Import Arith Lia List Bool ZArith Reals Lra SpecFloat.
From Flocq Require Import Core.
From Verif Require Import Outcome Scalar Matrix_model Vector_model Int_model Ode_model F64_spec F64Flocq F64Err_proofs F64Grid_proofs.
Import ListNotations.
Local Open Scope R_scope.

(** * C91: number of points, distance to the exact grid, recurrence and monotonicity *)
Theorem C91_grid : forall h t0 t1 M (step : f64 -> vector f64 -> f64 -> outcome (vector f64)) init tv xv,
  fvalid h -> fvalid t0 -> fvalid t1 -> ffin h = true -> ffin t0 = true -> ffin t1 = true ->
  0 < fval h -> fval t0 <= fval t1 -> Rabs (fval t0) <= M -> Rabs (fval t1) <= M -> M <= bpow radix2 1000 ->
  (fval t1 - fval t0) / fval h <= IZR (2 ^ 47) ->
  fixed_solve h step t0 t1 init = Ret (tv, xv) ->
  exists N, length tv = S N /\ length xv = S N /\
    Rabs (INR N - (fval t1 - fval t0) / fval h) <= 1 + 3 * uro * ((fval t1 - fval t0) / fval h) + eta64 /\
    nth 0 tv zero = t0 /\ nth 0 xv (mkMatrix 0 0 []) = init /\
    (forall i, (i <= N)%nat -> let t := nth i tv zero in fvalid t /\ ffin t = true /\
       Rabs (fval t - Rmin (fval t0 + INR i * fval h) (fval t1)) <= 4 * INR i * uro * M) /\
    (forall i, (i < N)%nat -> let t := nth i tv zero in let s := tmin h (sub t1 t) in
       nth (S i) tv zero = add t s /\ step t (nth i xv (mkMatrix 0 0 [])) s = Ret (nth (S i) xv (mkMatrix 0 0 [])) /\
       (fval t <= fval t1 -> fval t <= fval (nth (S i) tv zero))).
Proof.
  intros h t0 t1 M step init tv xv Vh V0 V1 Fh F0 F1 Hh Ht M0 M1 MB HQ E.
  destruct (fixed_solve_f64 h t0 t1 M Vh V0 V1 Fh F0 F1 Hh Ht M0 M1 MB HQ step init tv xv E) as (N & HN & _ & L1 & L2 & T0 & X0 & HT & HS).
  pose proof (count_small h t0 t1 Hh Ht HQ N HN) as HB.
  exists N. split; [exact L1|]. split; [exact L2|]. split; [exact HN|]. split; [exact T0|]. split; [exact X0|]. split.
  - intros i Hi. cbv zeta. rewrite HT by exact Hi. apply fgrid_err; try assumption. apply le_INR in Hi. lra.
  - intros i Hi. cbv zeta. split; [rewrite !HT by lia; reflexivity|]. split; [apply HS; exact Hi|]. rewrite !HT by lia.
    assert (HI : INR i <= IZR (2 ^ 48)) by (apply Nat.lt_le_incl, le_INR in Hi; lra).
    destruct (fgrid_err h t0 t1 M Vh V0 V1 Fh F0 F1 Hh Ht M0 M1 MB i HI) as (V & F & _).
    pose proof (fgrid_bound h t0 t1 M Vh V0 V1 Fh F0 F1 Hh Ht M0 M1 MB i HI) as B. intros Hle. exact (fnext_mono h t0 t1 M Vh V1 Fh F1 Hh M0 M1 MB _ V F B Hle).
Qed.
Print Assumptions C91_grid.

(** The last time agrees with the end of the interval up to rounding. *)
Theorem C91_last : forall h t0 t1 M (step : f64 -> vector f64 -> f64 -> outcome (vector f64)) init tv xv,
  fvalid h -> fvalid t0 -> fvalid t1 -> ffin h = true -> ffin t0 = true -> ffin t1 = true ->
  0 < fval h -> fval t0 <= fval t1 -> Rabs (fval t0) <= M -> Rabs (fval t1) <= M -> M <= bpow radix2 1000 ->
  (fval t1 - fval t0) / fval h <= IZR (2 ^ 47) ->
  fixed_solve h step t0 t1 init = Ret (tv, xv) ->
  tv <> [] /\ Rabs (fval (last tv zero) - fval t1) <= (4 * INR (length tv) + 2) * uro * M + eta64 * fval h.
Proof.
  intros h t0 t1 M step init tv xv Vh V0 V1 Fh F0 F1 Hh Ht M0 M1 MB HQ E.
  destruct (fixed_solve_f64 h t0 t1 M Vh V0 V1 Fh F0 F1 Hh Ht M0 M1 MB HQ step init tv xv E) as (N & HN & HN2 & L1 & L2 & T0 & X0 & HT & HS).
  pose proof (count_small h t0 t1 Hh Ht HQ N HN) as HB. split; [intros ->; discriminate|].
  rewrite (last_nth tv N) by exact L1. rewrite HT by lia. destruct (fgrid_err h t0 t1 M Vh V0 V1 Fh F0 F1 Hh Ht M0 M1 MB N HB) as (_ & _ & G).
  rewrite L1, S_INR. exact (grid_last h t0 t1 M Hh Ht M0 M1 N _ HN2 G).
Qed.
Print Assumptions C91_last.
(** [solve] returns whenever the interval is not reversed and the method does not panic. *)
Theorem C91_returns : forall (h t0 t1 : f64) (step : f64 -> vector f64 -> f64 -> outcome (vector f64)) init,
  ltb t1 t0 = false -> (forall t x w, exists y, step t x w = Ret y) -> exists tv xv, fixed_solve h step t0 t1 init = Ret (tv, xv).
Proof. exact fixed_solve_returns. Qed.
Print Assumptions C91_returns.
Example C91_example : fvalid (lit 1 10) /\ ffin (lit 1 10 : f64) = true /\ 0 < fval (lit 1 10) /\ fval zero <= fval one /\
  (exists tv xv, fixed_solve (lit 1 10 : f64) (do_step explicit_euler (fun _ x => Ret x)) zero one (vzero 1) = Ret (tv, xv) /\ length tv = 11%nat).
Proof. exact grid_example. Qed.

(** The exact claims fail: the last time can exceed the end of the interval (t in [-1, 3/4 2^-52], h = 2), .. *)
Theorem C91_within_refuted : exists tv xv,
  fixed_solve (of_Z 2 : f64) (do_step explicit_euler (fun _ x => Ret x)) (of_Z (-1)) (S754_finite false 6755399441055744 (-105)) (vzero 1) = Ret (tv, xv) /\
  length tv = 2%nat /\ ltb (S754_finite false 6755399441055744 (-105)) (last tv zero) = true.
Proof. exact grid_overshoot. Qed.
Print Assumptions C91_within_refuted.
(** .. and [0.5, 0.8] with h = 0.1 gives 5 points instead of 4. *)
Theorem C91_count_refuted : exists tv xv,
  fixed_solve (lit 1 10 : f64) (do_step explicit_euler (fun _ x => Ret x)) (lit 1 2) (lit 4 5) (vzero 1) = Ret (tv, xv) /\ length tv = 5%nat.
Proof. exact grid_extra. Qed.
Print Assumptions C91_count_refuted.
