(** Total error of the adaptive solvers in binary64: truncation and rounding together. *)
From Coq Require Import ZArith SpecFloat Reals Lra Lia Arith List Bool.
From Flocq Require Import Core.
From Coquelicot Require Import Coquelicot.
From Verif Require Import Outcome Scalar RealOps Matrix_model Vector_model Matrix_spec Ode_model Ode_spec OdeConv_spec Optim_spec Ode_proofs OdeConv_proofs OdeOrder_proofs OdeGlobal_proofs
  OdeMulti_proofs OdeAdapt_proofs LocalError_proofs
  F64_spec F64Flocq F64Err_proofs F64Grid_proofs F64Ode_spec F64Adapt_spec F64Euler_proofs F64EulerEx_proofs F64RK_proofs F64RKTab_proofs F64RKEx_proofs F64Adapt_proofs.
Import ListNotations.
Local Open Scope R_scope.

Section Total.
Variable pw : f64 -> f64 -> f64.
Variable p : pcontrol (T := f64).
Variables (t0 t1 : f64) (M : R) (init : vector f64) (n : nat).
Hypothesis M0 : Rabs (fval t0) <= M. Hypothesis M1 : Rabs (fval t1) <= M.
Variables (B64 : tableau2 f64) (B : tableau R) (A : R).
Variables (f : f64 -> vector f64 -> outcome (vector f64)) (fR : R -> vector R -> outcome (vector R)) (m : nat) (F : R -> (nat -> R) -> nat -> R).
Variables (lo hi X YB K L Lt eps w D rho delta : R) (y : nat -> R -> R) (g0 : nat -> f64).
Hypothesis HB : rounded_tableau (returned_method B64) B A.
Let xi := uro * (X + 39 * w * (A * (K + eps))) + (33 * w + 2) * eta64.
Let theta := uro * (9 / 8 * M + 4 * w) + 2 * eta64.
Let ups := 2 * uro * M.
Let a := xi + A * K * ups.
Let b := 2 * A * (eps + Lt * (theta + ups) + L * a).
Let bound T i := exp (2 * L * A * (T + INR i * ups)) * (delta + INR i * a + (b + D) * (T + INR i * ups)).
Hypothesis Hlo : lo + w + theta <= fval t0. Hypothesis Hhi : fval t1 + 4 * uro * M + w + theta <= hi.
Hypothesis Htot : rhs_total f m. Hypothesis Hf : box_evaluates f m F lo hi X eps.
Hypothesis HfR : forall t, computes (fR t) m m (F t). Hypothesis HF : box_regular m F lo hi X K L Lt.
Hypothesis HLoc : local_rate B fR m y lo hi w D.
Hypothesis HY : forall l t, (l < m)%nat -> lo <= t <= hi -> Rabs (y l t) <= YB.
Hypothesis L0 : 0 <= L. Hypothesis Lt0 : 0 <= Lt. Hypothesis E0 : 0 <= eps. Hypothesis K0 : 0 <= K. Hypothesis W0 : 0 <= w.
Hypothesis D0 : 0 <= D. Hypothesis De0 : 0 <= delta. Hypothesis Y0 : 0 <= YB.
Hypothesis Hq : L * w * A <= / 2. Hypothesis KB : A * (K + eps) <= bpow radix2 990. Hypothesis XB : X <= bpow radix2 1000. Hypothesis TB : 9 / 8 * M + w <= bpow radix2 1000.
Hypothesis Hi : fcol init m g0. Hypothesis Hdelta : within m (fun l => fval (g0 l) - y l (fval t0)) delta.
Hypothesis XP : 0 <= X.
Hypothesis Hrho : bound (fval t1 - fval t0 + 4 * uro * M) n <= rho.
Hypothesis HX : YB + rho + w * (A * (K + eps)) + xi <= X.
Variables (tv : list f64) (xv : list (vector f64)) (tn : f64) (xn : vector f64) (N : nat).
Hypothesis Hrun : arun pw p (do_step2 B64 f) t0 t1 M init tv xv tn xn N.
Hypothesis HN : (N <= n)%nat.
Hypothesis Hw : forall i, (i < N)%nat -> fval (nth (S i) tv zero) - fval (nth i tv zero) <= w - ups.

Lemma to_signs : 0 <= M /\ 0 <= A /\ 0 <= theta /\ 0 <= ups /\ 0 <= xi /\ 0 <= a /\ 0 <= b /\ 0 <= 2 * L * A.
Proof.
  pose proof small_consts as ((U0 & U1) & (T0 & T1)). assert (MP : 0 <= M) by (pose proof (Rabs_pos (fval t0)); lra).
  assert (A0 : 0 <= A) by (eapply A_pos; exact HB).
  assert (AK : 0 <= A * (K + eps)) by (apply Rmult_le_pos; lra). assert (wAK : 0 <= w * (A * (K + eps))) by (apply Rmult_le_pos; lra).
  assert (th0 : 0 <= theta) by (unfold theta; assert (0 <= uro * (9 / 8 * M + 4 * w)) by (apply Rmult_le_pos; lra); lra).
  assert (u0 : 0 <= ups) by (unfold ups; repeat apply Rmult_le_pos; lra).
  assert (AKu : 0 <= A * K * ups) by (apply Rmult_le_pos; [apply Rmult_le_pos; lra|exact u0]).
  assert (x0 : 0 <= xi).
  { unfold xi. assert (0 <= uro * (X + 39 * w * (A * (K + eps)))) by (apply Rmult_le_pos; lra). assert (0 <= (33 * w + 2) * eta64) by (apply Rmult_le_pos; lra). lra. }
  assert (a0 : 0 <= a) by (unfold a; lra).
  assert (b0 : 0 <= b).
  { unfold b. assert (0 <= Lt * (theta + ups)) by (apply Rmult_le_pos; lra). assert (0 <= L * a) by (apply Rmult_le_pos; lra). repeat apply Rmult_le_pos; lra. }
  assert (0 <= 2 * L * A) by (repeat apply Rmult_le_pos; lra).
  repeat (split; [assumption|]); assumption.
Qed.
Lemma exp_mono x x' : x <= x' -> exp x <= exp x'.
Proof. intros [H| ->]; [left; apply exp_increasing, H|lra]. Qed.
Lemma bound_mono T T' i i' : 0 <= T <= T' -> (i <= i')%nat -> 0 <= bound T i <= bound T' i'.
Proof.
  intros HT Hii. destruct to_signs as (MP & A0 & th0 & u0 & x0 & a0 & b0 & q0). unfold bound.
  pose proof (pos_INR i) as Pi. pose proof (le_INR _ _ Hii) as Pii.
  assert (I1 : 0 <= INR i * ups) by (apply Rmult_le_pos; lra). assert (I2 : INR i * ups <= INR i' * ups) by (apply Rmult_le_compat_r; lra).
  assert (I3 : 0 <= INR i * a <= INR i' * a) by (split; [apply Rmult_le_pos; lra|apply Rmult_le_compat_r; lra]).
  assert (I4 : 0 <= (b + D) * (T + INR i * ups) <= (b + D) * (T' + INR i' * ups)) by (split; [apply Rmult_le_pos; lra|apply Rmult_le_compat_l; lra]).
  pose proof (exp_pos (2 * L * A * (T + INR i * ups))) as P1.
  split; [apply Rmult_le_pos; lra|]. apply Rmult_le_compat; [lra|lra| |lra]. apply exp_mono. apply Rmult_le_compat_l; lra.
Qed.
Lemma bound_step T i d : 0 <= T -> 0 <= d -> (1 + 2 * L * A * (d + ups)) * bound T i + a + (b + D) * (d + ups) <= bound (T + d) (S i).
Proof.
  intros HT Hd. destruct to_signs as (MP & A0 & th0 & u0 & x0 & a0 & b0 & q0). unfold bound. rewrite S_INR.
  set (Q := 2 * L * A) in *. set (W := T + INR i * ups). set (v := d + ups).
  assert (P : 0 <= INR i * ups) by (apply Rmult_le_pos; [apply pos_INR|exact u0]). assert (P2 : 0 <= INR i * a) by (apply Rmult_le_pos; [apply pos_INR|exact a0]).
  assert (V0 : 0 <= v) by (unfold v; lra). assert (W0' : 0 <= W) by (unfold W; lra).
  replace (T + d + (INR i + 1) * ups) with (W + v) by (unfold W, v; ring). replace (Q * (W + v)) with (Q * W + Q * v) by ring. rewrite exp_plus.
  set (S0 := delta + INR i * a + (b + D) * W). replace (delta + (INR i + 1) * a + (b + D) * (W + v)) with (S0 + (a + (b + D) * v)) by (unfold S0; ring).
  assert (S00 : 0 <= S0) by (unfold S0; assert (0 <= (b + D) * W) by (apply Rmult_le_pos; lra); lra).
  assert (QW : 0 <= Q * W) by (apply Rmult_le_pos; lra). assert (Qv : 0 <= Q * v) by (apply Rmult_le_pos; lra).
  pose proof (exp_ineq1_le (Q * v)) as X1. pose proof (exp_ineq1_le (Q * W)) as X2.
  assert (G : 0 <= a + (b + D) * v) by (assert (0 <= (b + D) * v) by (apply Rmult_le_pos; lra); lra).
  assert (R1 : (1 + Q * v) * (exp (Q * W) * S0) <= exp (Q * v) * (exp (Q * W) * S0)) by (apply Rmult_le_compat_r; [apply Rmult_le_pos; [lra|exact S00]|exact X1]).
  assert (R2 : 1 * (a + (b + D) * v) <= exp (Q * W) * exp (Q * v) * (a + (b + D) * v)).
  { apply Rmult_le_compat_r; [exact G|]. rewrite <- (Rmult_1_l 1) at 1. apply Rmult_le_compat; lra. }
  replace (exp (Q * W) * exp (Q * v) * (S0 + (a + (b + D) * v))) with (exp (Q * v) * (exp (Q * W) * S0) + exp (Q * W) * exp (Q * v) * (a + (b + D) * v)) by ring.
  lra.
Qed.

Lemma to_run : forall i, (i <= N)%nat -> fval t0 <= fval (nth i tv zero) /\ exists g, fcol (nth i xv (mkMatrix 0 0 [])) m g /\
  within m (fun l => fval (g l) - y l (fval (nth i tv zero))) (bound (fval (nth i tv zero) - fval t0) i).
Proof.
  destruct to_signs as (MP & A0 & th0 & u0 & x0 & a0 & b0 & q0). pose proof small_consts as ((U0 & U1) & (T0 & T1)).
  assert (AK : 0 <= A * (K + eps)) by (apply Rmult_le_pos; lra).
  destruct Hrun as (_ & _ & _ & H1 & H2 & _ & _ & HT & HS).
  induction i as [|i IH]; intros Hi1.
  - rewrite H1, H2. split; [lra|]. exists g0. split; [exact Hi|]. intros l Hl. eapply Rle_trans; [apply (Hdelta l Hl)|].
    unfold bound. cbn [INR]. rewrite Rminus_eq_0, !Rmult_0_l, Rplus_0_r, !Rmult_0_r, exp_0. lra.
  - destruct (IH ltac:(lia)) as (Bt0 & g & Hg & Bge). clear IH.
    destruct (HT i ltac:(lia)) as (Vt & Ft & Bt). destruct (HT (S i) ltac:(lia)) as (Vt' & Ft' & Bt').
    destruct (HS i ltac:(lia)) as (s & xh & er & Vs & Fs & Ps & _ & Et & Mo & Er & Est & _). pose proof (Hw i ltac:(lia)) as Gw.
    split; [lra|]. set (tt := nth i tv zero) in *. set (tt' := nth (S i) tv zero) in *. fold ups in Er.
    set (e := bound (fval tt - fval t0) i) in *. set (d := fval tt' - fval tt) in *. set (wi := d + ups).
    assert (Be : 0 <= e <= rho).
    { destruct (bound_mono (fval tt - fval t0) (fval t1 - fval t0 + 4 * uro * M) i n ltac:(lra) ltac:(lia)) as (B1 & B2). fold e in B1, B2. lra. }
    assert (d0 : 0 <= d) by (unfold d; lra). assert (wi0 : 0 <= wi <= w) by (unfold wi; lra).
    assert (wiAK : 0 <= wi * (A * (K + eps)) <= w * (A * (K + eps))) by (split; [apply Rmult_le_pos; lra|apply Rmult_le_compat_r; lra]).
    set (xii := uro * (X + 39 * wi * (A * (K + eps))) + (33 * wi + 2) * eta64).
    assert (xii0 : xii <= xi).
    { unfold xii, xi. assert (uro * (X + 39 * wi * (A * (K + eps))) <= uro * (X + 39 * w * (A * (K + eps)))) by (apply Rmult_le_compat_l; lra).
      assert ((33 * wi + 2) * eta64 <= (33 * w + 2) * eta64) by (apply Rmult_le_compat_r; lra). lra. }
    set (thi := uro * (9 / 8 * M + 4 * wi) + 2 * eta64).
    assert (thi0 : thi <= theta) by (unfold thi, theta; assert (uro * (9 / 8 * M + 4 * wi) <= uro * (9 / 8 * M + 4 * w)) by (apply Rmult_le_compat_l; lra); lra).
    set (Xg := YB + e).
    assert (It : lo <= fval tt <= hi) by lra.
    assert (GRB : within m (fun l => y l (fval tt)) Xg) by (intros l Hl; specialize (HY l (fval tt) Hl It); unfold Xg; lra).
    assert (GB : within m (fun l => fval (g l)) Xg).
    { intros l Hl. specialize (HY l (fval tt) Hl It). specialize (Bge l Hl). cbv beta in *. apply Rabs_le_inv in HY. apply Rabs_le_inv in Bge. unfold Xg. apply Rabs_le. lra. }
    assert (HXg : Xg + wi * (A * (K + eps)) + xii <= X) by (unfold Xg; lra).
    pose proof (Rabs_le_inv _ _ Er) as Er'.
    assert (UM : 0 <= uro * M <= / 1000000000 * M) by (split; [apply Rmult_le_pos; lra|apply Rmult_le_compat_r; lra]).
    pose proof (Rabs_le_inv _ _ M0) as M0'. pose proof (Rabs_le_inv _ _ M1) as M1'.
    destruct (col_exists m (fun l => y l (fval tt))) as (xR & HxR).
    assert (Hqi : L * wi * A <= / 2).
    { eapply Rle_trans; [|exact Hq]. apply Rmult_le_compat_r; [exact A0|]. apply Rmult_le_compat_l; lra. }
    destruct (rk_step_main (returned_method B64) B A f fR m F lo hi X K L Lt eps wi (9 / 8 * M) HB Htot Hf HfR HF L0 Lt0 E0 K0 (proj1 wi0) Hqi KB XB ltac:(lra) ltac:(lra)
      tt s d (nth i xv (mkMatrix 0 0 [])) g xR (fun l => y l (fval tt)) Xg e ups Vt Ft ltac:(apply Rabs_le; lra) ltac:(fold thi; lra) Vs Fs ltac:(rewrite Rabs_pos_eq; unfold wi; lra) ltac:(rewrite Rabs_pos_eq; unfold wi; lra) Er Hg HxR GB GRB HXg ltac:(unfold Xg; lra) Bge (proj1 Be))
      as (x' & g' & xR' & gR' & R1 & R2 & R3 & R4 & R5 & _).
    fold xii thi in R5. apply do_step2_returned in Est. rewrite Est in R1. injection R1 as R1.
    destruct (HLoc (fval tt) d xR ltac:(lra) ltac:(unfold d; lra) ltac:(unfold wi in wi0; lra) HxR) as (x2 & g2 & S1 & S2 & S3). rewrite R3 in S1. injection S1 as <-.
    rewrite R1. exists g'. split; [exact R2|]. intros l Hl. specialize (R5 l Hl). specialize (S3 l Hl). cbv beta in *.
    replace (fval tt + d) with (fval tt') in S3 by (unfold d; ring). rewrite (rcol_unique xR' m gR' g2 l R4 S2 Hl) in R5.
    replace (fval (g' l) - y l (fval tt')) with ((fval (g' l) - g2 l) + (g2 l - y l (fval tt'))) by ring. eapply Rle_trans; [apply Rabs_triang|].
    replace (fval tt' - fval t0) with (fval tt - fval t0 + d) by (unfold d; ring).
    eapply Rle_trans; [|apply bound_step; lra]. fold e wi.
    assert (G1 : eps + Lt * (thi + ups) + L * (xii + A * K * ups + e) <= eps + Lt * (theta + ups) + L * (a + e)).
    { assert (Lt * (thi + ups) <= Lt * (theta + ups)) by (apply Rmult_le_compat_l; lra). assert (L * (xii + A * K * ups + e) <= L * (a + e)) by (apply Rmult_le_compat_l; unfold a; lra). lra. }
    assert (G2 : wi * A * (2 * (eps + Lt * (thi + ups) + L * (xii + A * K * ups + e))) <= wi * A * (2 * (eps + Lt * (theta + ups) + L * (a + e)))) by (apply Rmult_le_compat_l; [apply Rmult_le_pos; lra|lra]).
    assert (G3 : wi * A * (2 * (eps + Lt * (theta + ups) + L * (a + e))) = b * wi + 2 * L * A * wi * e) by (unfold b; ring).
    assert (G4 : D * d <= D * wi) by (apply Rmult_le_compat_l; unfold wi; lra).
    unfold a in *. lra.
Qed.
End Total.

Lemma adapt_total pw (p : pcontrol (T := f64)) (t0 t1 : f64) M n B64 B A f fR m F lo hi X YB K L Lt eps w D rho delta y init g0 :
  f64_valued pw -> fpos (h_0 p) -> fvalid (fac p) -> fpos (fac_min p) -> fpos (fac_max p) ->
  fvalid t0 -> fvalid t1 -> ffin t0 = true -> ffin t1 = true ->
  fval t0 <= fval t1 -> Rabs (fval t0) <= M -> Rabs (fval t1) <= M -> M <= bpow radix2 1000 ->
  rounded_tableau (returned_method B64) B A ->
  let xi := uro * (X + 39 * w * (A * (K + eps))) + (33 * w + 2) * eta64 in
  let theta := uro * (9 / 8 * M + 4 * w) + 2 * eta64 in
  let ups := 2 * uro * M in
  let a := xi + A * K * ups in
  let b := 2 * A * (eps + Lt * (theta + ups) + L * a) in
  let bound T i := exp (2 * L * A * (T + INR i * ups)) * (delta + INR i * a + (b + D) * (T + INR i * ups)) in
  lo + w + theta <= fval t0 -> fval t1 + 4 * uro * M + w + theta <= hi ->
  rhs_total f m -> box_evaluates f m F lo hi X eps -> (forall t, computes (fR t) m m (F t)) -> box_regular m F lo hi X K L Lt ->
  local_rate B fR m y lo hi w D -> (forall l t, (l < m)%nat -> lo <= t <= hi -> Rabs (y l t) <= YB) ->
  0 <= L -> 0 <= Lt -> 0 <= eps -> 0 <= K -> 0 <= w -> 0 <= D -> 0 <= delta -> 0 <= YB ->
  L * w * A <= / 2 -> A * (K + eps) <= bpow radix2 990 -> X <= bpow radix2 1000 -> 9 / 8 * M + w <= bpow radix2 1000 ->
  fcol init m g0 -> within m (fun l => fval (g0 l) - y l (fval t0)) delta -> 0 <= X ->
  bound (fval t1 - fval t0 + 4 * uro * M) n <= rho -> YB + rho + w * (A * (K + eps)) + xi <= X ->
  forall ord fuel tv xv, @adapt_solve f64 F64_ops (F64_pops pw) p (do_step2 B64 f) ord fuel t0 t1 init = Ret (Some (Some (tv, xv))) ->
  (length tv <= S n)%nat ->
  let tau k := fval (nth k tv zero) in
  (forall i, (S i < length tv)%nat -> tau (S i) - tau i <= w - ups) ->
  forall i, (i < length tv)%nat -> exists g, fcol (nth i xv (mkMatrix 0 0 [])) m g /\
    within m (fun l => fval (g l) - y l (tau i)) (bound (tau i - fval t0) i).
Proof.
  intros Hpw Hh Vf Hmin Hmax V0 V1 F0 F1 Ht M0 M1 MB HB xi theta ups a b bound Hlo Hhi Htot Hf HfR HF HLoc HY L0 Lt0 E0 K0 W0 D0 De0 Y0 Hq KB XB TB Hi Hd XP Hrho HX ord fuel tv xv E Hn tau Hw i Hin.
  destruct (solve_arun pw p _ t0 t1 M init ord fuel Hpw Hh Vf Hmin Hmax V0 V1 F0 F1 Ht M0 M1 MB _ E) as (N & tv' & xv' & tn & xn & Hr & <- & <- & _).
  pose proof Hr as (L1 & _).
  refine (proj2 (to_run pw p t0 t1 M init n M0 M1 B64 B A f fR m F lo hi X YB K L Lt eps w D rho delta y g0 HB Hlo Hhi Htot Hf HfR HF HLoc HY L0 Lt0 E0 K0 W0 D0 De0 Y0 Hq KB XB TB Hi Hd XP Hrho HX tv xv tn xn N Hr _ _ i _)); try lia.
  intros j Hj. apply (Hw j). lia.
Qed.

(** The truncation error per unit of time of the shipped embedded methods. *)
Lemma rate_order B p p' f m F t0 t1 Y rho L : In (B, (p, p')) embedded_list \/ (B = cash_karp45 /\ p = 4%nat /\ p' = 5%nat) ->
  (forall t, computes (f t) m m (F t)) ->
  smooth_solution m F t0 t1 (p + 1) Y -> 0 < rho -> lipschitz_near m F t0 t1 (Y 0%nat) rho L ->
  ((3 <= p)%nat -> exists J, smooth_jacobian m F t0 t1 (Y 0%nat) rho (Nat.min p 4 - 2) J) ->
  exists C H, 0 <= C /\ 0 < H /\ forall w, 0 <= w <= H -> local_rate (returned_method B) f m (Y 0%nat) t0 t1 w (C * w ^ Nat.min p 4).
Proof.
  intros HB Hf HY Hr HL HJ. destruct (embedded_ok B p p' HB) as (Hs & Hok & _ & Hp). destruct (embedded_main B p p' HB) as (Hrow & Hord).
  assert (Hn : forall k, (k < length (tb2 B) - 1)%nat -> 0 <= nth k (tc2 B) 0 <= 1).
  { intros k Hk. destruct (embedded_nodes B (p, p')) as (HL' & Hn); [tauto|]. apply Hn. lia. }
  apply (order_le _ _ _ p (Nat.min p 4)) in Hord; [|lia]. apply (smooth_le _ _ _ _ _ (S (Nat.min p 4))) in HY; [|lia].
  destruct (forward_stg (returned_method B) m (Nat.min p 4) F t0 t1 Y rho L Hs Hrow Hord Hn HY Hr HL ltac:(lia)) as (C & H & C0 & H0 & Fw); [intros H3; apply HJ; lia|].
  exists C, H. split; [exact C0|]. split; [exact H0|]. intros w Hw t s x Ht Hts Hsw Hx.
  destruct (step_stg (returned_method B) f m (Nat.min p 4) F Hs Hok Hf ltac:(lia) t x _ s Hx) as (r & K & E & HK & Hr').
  exists r, (step_of (length (tb (returned_method B))) (b_of (tb (returned_method B))) (fun i => Y 0%nat i t) s K). split; [exact E|]. split; [exact Hr'|]. intros i Hi.
  destruct (Req_dec s 0) as [->|Ns].
  - unfold step_of. rewrite Rplus_0_r, !Rmult_0_r, Rplus_0_r, Rminus_eq_0, Rabs_R0. lra.
  - specialize (Fw t s K Ht ltac:(lra) Hts HK). eapply Rle_trans; [apply (Fw i Hi)|]. cbn [pow].
    replace (C * (s * s ^ Nat.min p 4)) with (C * s ^ Nat.min p 4 * s) by ring. apply Rmult_le_compat_r; [lra|]. apply Rmult_le_compat_l; [exact C0|]. apply pow_incr. lra.
Qed.
Lemma rate_order_5 B p' f m F t0 t1 Y rho L J Hs2 : In (B, (5%nat, p')) embedded_list -> (forall t, computes (f t) m m (F t)) ->
  smooth_solution m F t0 t1 6 Y -> 0 < rho -> lipschitz_near m F t0 t1 (Y 0%nat) rho L ->
  smooth_jacobian m F t0 t1 (Y 0%nat) rho 3 J -> smooth_hessian m F t0 t1 (Y 0%nat) rho (J 0%nat) Hs2 ->
  exists C H, 0 <= C /\ 0 < H /\ forall w, 0 <= w <= H -> local_rate (returned_method B) f m (Y 0%nat) t0 t1 w (C * w ^ 5).
Proof.
  intros HB Hf HY Hr HL HJ HH. destruct (embedded_ok B 5 p' (or_introl HB)) as (Hs & Hok & _ & Hp). destruct (embedded_main B 5 p' (or_introl HB)) as (Hrow & Hord).
  assert (Hn : forall k, (k < length (tb2 B) - 1)%nat -> 0 <= nth k (tc2 B) 0 <= 1).
  { intros k Hk. destruct (embedded_nodes B (5%nat, p')) as (HL' & Hn); [tauto|]. apply Hn. lia. }
  destruct (forward_stg_5 (returned_method B) m F t0 t1 Y rho L J Hs2 Hs Hrow Hord Hn HY Hr HL HJ HH) as (C & H & C0 & H0 & Fw).
  exists C, H. split; [exact C0|]. split; [exact H0|]. intros w Hw t s x Ht Hts Hsw Hx.
  destruct (step_stg (returned_method B) f m 5 F Hs Hok Hf ltac:(lia) t x _ s Hx) as (r & K & E & HK & Hr').
  exists r, (step_of (length (tb (returned_method B))) (b_of (tb (returned_method B))) (fun i => Y 0%nat i t) s K). split; [exact E|]. split; [exact Hr'|]. intros i Hi.
  destruct (Req_dec s 0) as [->|Ns].
  - unfold step_of. rewrite Rplus_0_r, !Rmult_0_r, Rplus_0_r, Rminus_eq_0, Rabs_R0. lra.
  - specialize (Fw t s K Ht ltac:(lra) Hts HK). eapply Rle_trans; [apply (Fw i Hi)|].
    replace (C * s ^ 6) with (C * s ^ 5 * s) by ring. apply Rmult_le_compat_r; [lra|]. apply Rmult_le_compat_l; [exact C0|]. apply pow_incr. lra.
Qed.
