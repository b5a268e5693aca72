(** * Property C107: the adaptive solver in binary64

    [adapt_solve p (do_step2 B f) q fuel t0 t1 init] is the model of the adaptive solver with the step control p and the
    embedded pair B. It returns [Ret (Some (Some (tv, xv)))] for Ok, the times and states, [Ret (Some None)] for Err, and
    [Ret None] if it has not ended after [fuel] attempts. pw is powf, of which only [f64_valued] is assumed. Specification:
    [F64_spec.v] (f64 values), [F64Ode_spec.v] ([fcol], [box_evaluates], [box_regular], [rounded_tableau], [exact_run]) and
    [F64Adapt_spec.v] ([accepted_steps], [embedded_pairs], [returned_method], [fpos]). *)
From Coq Require Import Arith List Bool Reals.
From Flocq Require Import Core.
From Verif Require Import Outcome Scalar RealOps Matrix_model Vector_model Ode_model Matrix_spec Ode_spec Optim_spec OdeConv_spec F64_spec F64Ode_spec F64Adapt_spec F64EulerEx_proofs F64Adapt_proofs F64AdaptEx_proofs.
Import ListNotations.
Local Open Scope R_scope.

(** An Ok answer is a run of accepted steps that reaches t1, of at most n_max steps, whatever the method, the right-hand
    side (NaN included) and powf do. *)
Theorem C107_answers : forall pw (p : pcontrol (T := f64)) (step : stepfn2 (T := f64)) (t0 t1 : f64) M init q fuel,
  f64_valued pw -> fpos (h_0 p) -> fvalid (fac p) -> fpos (fac_min p) -> fpos (fac_max p) ->
  fvalid t0 -> fvalid t1 -> ffin t0 = true -> ffin t1 = true ->
  fval t0 <= fval t1 -> Rabs (fval t0) <= M -> Rabs (fval t1) <= M -> M <= bpow radix2 1000 ->
  forall tv xv, @adapt_solve f64 F64_ops (F64_pops pw) p step q fuel t0 t1 init = Ret (Some (Some (tv, xv))) ->
  length tv = length xv /\ (1 <= length tv <= S (n_max p))%nat /\ fval t1 <= fval (nth (length tv - 1) tv zero) /\
  accepted_steps pw p step t0 t1 M init tv xv.
Proof. exact adapt_answers. Qed.
Print Assumptions C107_answers.

(** Err is only returned after n_max accepted steps that have not reached t1. *)
Theorem C107_gives_up : forall pw (p : pcontrol (T := f64)) (step : stepfn2 (T := f64)) (t0 t1 : f64) M init q fuel,
  f64_valued pw -> fpos (h_0 p) -> fvalid (fac p) -> fpos (fac_min p) -> fpos (fac_max p) ->
  fvalid t0 -> fvalid t1 -> ffin t0 = true -> ffin t1 = true ->
  fval t0 <= fval t1 -> Rabs (fval t0) <= M -> Rabs (fval t1) <= M -> M <= bpow radix2 1000 ->
  @adapt_solve f64 F64_ops (F64_pops pw) p step q fuel t0 t1 init = Ret (Some None) ->
  exists tv xv, length tv = S (n_max p) /\ length xv = S (n_max p) /\ fval (nth (n_max p) tv zero) < fval t1 /\
    accepted_steps pw p step t0 t1 M init tv xv.
Proof. exact adapt_gives_up. Qed.
Print Assumptions C107_gives_up.

(** The shipped pairs are the documented real pairs rounded to f64. *)
Theorem C107_tableaux : Forall (fun p => rounded_tableau (returned_method (fst (fst p))) (returned_method (snd (fst p))) (snd p)) embedded_pairs.
Proof. exact embedded_rounded. Qed.
Print Assumptions C107_tableaux.

(** The states follow the exact run of the returned method on the solver's own time points, as long as that stays within XR
    and no step is longer than w: after i steps every component is finite and off by at most exp(i q) i r. *)
Theorem C107_run : forall pw (p : pcontrol (T := f64)) (t0 t1 : f64) M n B64 B A f fR m F lo hi X XR K L Lt eps w init g0 initR,
  f64_valued pw -> fpos (h_0 p) -> fvalid (fac p) -> fpos (fac_min p) -> fpos (fac_max p) ->
  fvalid t0 -> fvalid t1 -> ffin t0 = true -> ffin t1 = true ->
  fval t0 <= fval t1 -> Rabs (fval t0) <= M -> Rabs (fval t1) <= M -> M <= bpow radix2 1000 ->
  rounded_tableau (returned_method B64) B A ->
  let xi := uro * (X + 39 * w * (A * (K + eps))) + (33 * w + 2) * eta64 in
  let theta := uro * (9 / 8 * M + 4 * w) + 2 * eta64 in
  let ups := 2 * uro * M in
  let r := xi + A * K * ups + 2 * w * A * (eps + Lt * (theta + ups) + L * (xi + A * K * ups)) in
  let q := 2 * L * A * w in
  lo + w + theta <= fval t0 -> fval t1 + 4 * uro * M + w + theta <= hi ->
  rhs_total f m -> box_evaluates f m F lo hi X eps -> (forall t, computes (fR t) m m (F t)) -> box_regular m F lo hi X K L Lt ->
  0 <= L -> 0 <= Lt -> 0 <= eps -> 0 <= K -> 0 <= w ->
  L * w * A <= / 2 -> A * (K + eps) <= bpow radix2 990 -> X <= bpow radix2 1000 -> 9 / 8 * M + w <= bpow radix2 1000 ->
  fcol init m g0 -> is_col initR m (fun l => fval (g0 l)) -> 0 <= XR -> 0 <= X ->
  XR + w * (A * (K + eps)) + xi + exp (INR n * q) * (INR n * r) <= X ->
  forall ord fuel tv xv, @adapt_solve f64 F64_ops (F64_pops pw) p (do_step2 B64 f) ord fuel t0 t1 init = Ret (Some (Some (tv, xv))) ->
  (length tv <= S n)%nat ->
  let tau k := fval (nth k tv zero) in
  (forall i, (S i < length tv)%nat -> tau (S i) - tau i <= w - ups) ->
  (forall i xR gR, (S i < length tv)%nat -> exact_run B fR tau initR i = Ret xR -> is_col xR m gR -> within m gR XR) ->
  forall i, (i < length tv)%nat -> exists g xR gR, fcol (nth i xv (mkMatrix 0 0 [])) m g /\
    exact_run B fR tau initR i = Ret xR /\ is_col xR m gR /\
    within m (fun l => fval (g l) - gR l) (exp (INR i * q) * (INR i * r)).
Proof. exact adapt_follow. Qed.
Print Assumptions C107_run.

(** For the shipped pairs; X0 + n w A K <= XR keeps the exact run in the box. *)
Theorem C107_shipped : forall pw (p : pcontrol (T := f64)) (t0 t1 : f64) M n B64 B A f fR m F lo hi X XR K L Lt eps w init g0 initR,
  f64_valued pw -> fpos (h_0 p) -> fvalid (fac p) -> fpos (fac_min p) -> fpos (fac_max p) ->
  fvalid t0 -> fvalid t1 -> ffin t0 = true -> ffin t1 = true ->
  fval t0 <= fval t1 -> Rabs (fval t0) <= M -> Rabs (fval t1) <= M -> M <= bpow radix2 1000 ->
  In (B64, B, A) embedded_pairs ->
  let xi := uro * (X + 39 * w * (A * (K + eps))) + (33 * w + 2) * eta64 in
  let theta := uro * (9 / 8 * M + 4 * w) + 2 * eta64 in
  let ups := 2 * uro * M in
  let r := xi + A * K * ups + 2 * w * A * (eps + Lt * (theta + ups) + L * (xi + A * K * ups)) in
  let q := 2 * L * A * w in
  lo + w + theta <= fval t0 -> fval t1 + 4 * uro * M + w + theta <= hi ->
  rhs_total f m -> box_evaluates f m F lo hi X eps -> (forall t, computes (fR t) m m (F t)) -> box_regular m F lo hi X K L Lt ->
  0 <= L -> 0 <= Lt -> 0 <= eps -> 0 <= K -> 0 <= w ->
  L * w * A <= / 2 -> A * (K + eps) <= bpow radix2 990 -> X <= bpow radix2 1000 -> 9 / 8 * M + w <= bpow radix2 1000 ->
  fcol init m g0 -> is_col initR m (fun l => fval (g0 l)) -> 0 <= XR -> 0 <= X ->
  XR + w * (A * (K + eps)) + xi + exp (INR n * q) * (INR n * r) <= X ->
  forall X0, within m (fun l => fval (g0 l)) X0 -> X0 + INR n * (w * (A * K)) <= XR ->
  forall ord fuel tv xv, @adapt_solve f64 F64_ops (F64_pops pw) p (do_step2 B64 f) ord fuel t0 t1 init = Ret (Some (Some (tv, xv))) ->
  (length tv <= S n)%nat ->
  let tau k := fval (nth k tv zero) in
  (forall i, (S i < length tv)%nat -> tau (S i) - tau i <= w - ups) ->
  forall i, (i < length tv)%nat -> exists g xR gR, fcol (nth i xv (mkMatrix 0 0 [])) m g /\
    exact_run (returned_method B) fR tau initR i = Ret xR /\ is_col xR m gR /\
    within m (fun l => fval (g l) - gR l) (exp (INR i * q) * (INR i * r)).
Proof. exact adapt_shipped. Qed.
Print Assumptions C107_shipped.

(** BogackiShampine23 with the default step control on x' = -x, x(0) = 1, over [0, 1/16], with a power function that is exact
    for square roots and 1 otherwise: five accepted steps of different sizes, none of them moved by more than 1e-13. *)
Example C107_example : exists xv, length xv = 6%nat /\
  @adapt_solve f64 F64_ops (F64_pops demo_pow) pc_default (do_step2 bogacki_shampine23 (fun _ x => Ret (vneg x))) (fst bogacki_shampine23_order) 20 zero demo_stop decay_init = Ret (Some (Some (demo_times, xv))) /\
  forall i, (i < 6)%nat -> exists g xR gR, fcol (nth i xv (mkMatrix 0 0 [])) 1 g /\
    exact_run (returned_method bogacki_shampine23) (fun _ x => Ret (vneg x)) (fun k => fval (nth k demo_times zero)) (mkMatrix 1 1 [1]) i = Ret xR /\ is_col xR 1 gR /\
    Rabs (fval (g 0%nat) - gR 0%nat) <= / 10 ^ 13.
Proof. exact decay_adaptive. Qed.
Print Assumptions C107_example.

(** Unlike in exact arithmetic (C43), accepted steps need not advance the time: with the initial step 2^-60 the solver takes
    n_max steps at t = 1 and gives up on x' = 0 over [1, 2], for every n_max. *)
Theorem C107_time_advances_refuted : forall pw n fuel, pw zero (@half f64 (F64_pops pw)) = zero -> (n <= fuel)%nat ->
  @adapt_solve f64 F64_ops (F64_pops pw) (mkPC n tiny_h (lit 4 5) (lit 1 1000) (lit 3 1) (lit 1 100000) (lit 1 100))
    (do_step2 bogacki_shampine23 (fun _ _ => Ret (mkMatrix 1 1 [zero]))) (fst bogacki_shampine23_order) fuel one f_two decay_init = Ret (Some None).
Proof. exact stalls. Qed.
Print Assumptions C107_time_advances_refuted.
