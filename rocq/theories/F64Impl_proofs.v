(** Total error, truncation, rounding and root finding, of the implicit Euler solver in binary64. *)
From Coq Require Import Arith List Bool Lia ZArith Reals Lra Psatz SpecFloat.
From Flocq Require Import Core IEEE754.BinarySingleNaN.
From Coquelicot Require Import Coquelicot.
From Verif Require Import Outcome Scalar RealOps Matrix_model Vector_model Int_model LU_model Decomp_model Ode_model Optim_model Matrix_spec Ode_spec OdeConv_spec
  Matrix_proofs Vector_proofs Ode_proofs F64_spec F64Flocq F64Err_proofs F64Grid_proofs F64Ode_spec F64Euler_proofs
  F64Cplx_spec F64Newton_spec F64Newton_proofs F64Impl_spec.
Import ListNotations.
Local Open Scope R_scope.
#[local] Existing Instance Hprec53.

(** ** The driver with a step that is only known to succeed near the solution *)
Section Driver.
Variables h t0 t1 : f64.
Variable M : R.
Hypothesis Vh : fvalid h. Hypothesis V0 : fvalid t0. Hypothesis V1 : fvalid t1.
Hypothesis Fh : ffin h = true. Hypothesis F0 : ffin t0 = true. Hypothesis F1 : ffin t1 = true.
Hypothesis Hh : 0 < fval h.
Hypothesis Ht : fval t0 <= fval t1.
Hypothesis M0 : Rabs (fval t0) <= M. Hypothesis M1 : Rabs (fval t1) <= M. Hypothesis MB : M <= bpow radix2 1000.
Hypothesis HQ : (fval t1 - fval t0) / fval h <= IZR (2 ^ 47).
Variable n : nat.
Hypothesis Hn : (fval t1 - fval t0) / fval h + 2 <= INR n.
Hypothesis Hn48 : INR n <= IZR (2 ^ 48).
Let w := fval h + 4 * (INR n + 1) * uro * M.
Let lo := fval t0 - 4 * INR n * uro * M.
Let hi := fval t1 + 4 * INR n * uro * M.
Variables (m : nat) (y : nat -> R -> R) (a d delta : R) (rho : R).
Variable step : f64 -> vector f64 -> f64 -> outcome (vector f64).
Hypothesis Ha : 1 <= a. Hypothesis Hd : 0 <= d. Hypothesis Hdl : 0 <= delta.
Hypothesis Hrho : a ^ n * (delta + INR n * d) <= rho.
Hypothesis Hstep : forall (t s : f64) x g e, fvalid t -> ffin t = true -> lo <= fval t <= hi -> fvalid s -> ffin s = true -> Rabs (fval s) <= w ->
  ffin (add t s) = true -> lo <= fval (add t s) <= hi -> Rabs (fval (add t s) - fval t) <= w -> Rabs (fval s - (fval (add t s) - fval t)) <= 2 * uro * M ->
  is_col x m g -> (forall l, (l < m)%nat -> fvalid (g l) /\ ffin (g l) = true) -> 0 <= e <= rho ->
  within m (fun l => fval (g l) - y l (fval t)) e ->
  exists x' g', step t x s = Ret x' /\ is_col x' m g' /\ (forall l, (l < m)%nat -> fvalid (g' l) /\ ffin (g' l) = true) /\
    within m (fun l => fval (g' l) - y l (fval (add t s))) (a * e + d).

Lemma guarded_step i x g : (i < n)%nat -> let t := Nat.iter i (fnext h t1) t0 in let s := tmin h (sub t1 t) in
  is_col x m g -> (forall l, (l < m)%nat -> fvalid (g l) /\ ffin (g l) = true) ->
  within m (fun l => fval (g l) - y l (fval t)) (a ^ i * (delta + INR i * d)) ->
  exists x' g', step t x s = Ret x' /\ is_col x' m g' /\ (forall l, (l < m)%nat -> fvalid (g' l) /\ ffin (g' l) = true) /\
    within m (fun l => fval (g' l) - y l (fval (Nat.iter (S i) (fnext h t1) t0))) (a ^ S i * (delta + INR (S i) * d)).
Proof.
  intros Hi t s Hg Hgv Hge.
  pose proof (time_facts h t0 t1 M Vh V0 V1 Fh F0 F1 Hh Ht M0 M1 MB n Hn48 i Hi) as TF. cbv zeta in TF. fold t in TF. fold s in TF.
  destruct TF as (Vt & Ft & Bt & Vs & Fs & Bs & _ & Ba & Bw & Bd).
  assert (HI' : INR (S i) <= IZR (2 ^ 48)) by (eapply Rle_trans; [|exact Hn48]; apply le_INR; lia).
  destruct (fgrid_err h t0 t1 M Vh V0 V1 Fh F0 F1 Hh Ht M0 M1 MB (S i) HI') as (_ & Fa & _). change (Nat.iter (S i) (fnext h t1) t0) with (add t s) in Fa |- *.
  destruct (Hstep t s x g _ Vt Ft Bt Vs Fs Bs Fa Ba Bw Bd Hg Hgv (pow_mono n a d delta rho Ha Hd Hdl Hrho i ltac:(lia)) Hge) as (x' & g' & E & Hg' & Hgv' & Hge').
  exists x', g'. split; [exact E|]. split; [exact Hg'|]. split; [exact Hgv'|]. intros l Hl. eapply Rle_trans; [apply (Hge' l Hl)|]. now apply pow_step.
Qed.

Lemma guarded_returns init g0 : is_col init m g0 -> (forall l, (l < m)%nat -> fvalid (g0 l) /\ ffin (g0 l) = true) ->
  within m (fun l => fval (g0 l) - y l (fval t0)) delta -> exists tv xv, fixed_solve h step t0 t1 init = Ret (tv, xv).
Proof.
  intros Hi Hv H0. unfold fixed_solve. rewrite fltb_val by assumption. rewrite Rlt_bool_false by exact Ht. cbv zeta.
  destruct (fcount h t0 t1 M Vh V0 V1 Fh F0 F1 Hh Ht M0 M1 MB HQ) as (Vq & Fq & Rq & Eq). destruct (fsteps _ Vq Fq Rq) as (N & HN & HNb). rewrite HN.
  assert (Nn : (N < n)%nat).
  { apply INR_lt. apply Rabs_le_inv in Eq. set (Q := (fval t1 - fval t0) / fval h) in *. change (IZR (2 ^ 47)) with 140737488355328 in HQ.
    assert (eta64 <= / 2) by (unfold eta64; change (/ 2) with (bpow radix2 (-1)); apply bpow_le; lia). rewrite uro_val in Eq. lra. }
  match goal with |- context [for_loop 0 ?k ?b ?s] => destruct (for_loop_ind (fun i (st : list f64 * list (vector f64) * f64 * vector f64) => let '(_, _, tn, xn) := st in
     tn = Nat.iter i (fnext h t1) t0 /\ exists g, is_col xn m g /\ (forall l, (l < m)%nat -> fvalid (g l) /\ ffin (g l) = true) /\
       within m (fun l => fval (g l) - y l (fval tn)) (a ^ i * (delta + INR i * d))) b 0 k s) as (st & -> & _) end.
  - lia.
  - split; [reflexivity|]. exists g0. split; [exact Hi|]. split; [exact Hv|]. cbn [pow INR]. intros l Hl. specialize (H0 l Hl). cbv beta in *. lra.
  - intros i [[[tv xv] tn] xn] Hib (-> & g & Hg & Hgv & Hge).
    destruct (guarded_step i xn g ltac:(lia) Hg Hgv Hge) as (x' & g' & E & Hg' & Hgv' & Hge'). rewrite E. cbn [bind]. eexists. split; [reflexivity|].
    split; [reflexivity|]. exists g'. split; [exact Hg'|]. split; [exact Hgv'|exact Hge'].
  - destruct st as [[[tv xv] tn] xn]. exists tv, xv. reflexivity.
Qed.

Lemma guarded_driver init g0 : is_col init m g0 -> (forall l, (l < m)%nat -> fvalid (g0 l) /\ ffin (g0 l) = true) ->
  within m (fun l => fval (g0 l) - y l (fval t0)) delta ->
  exists N tv xv, (N <= n)%nat /\ fixed_solve h step t0 t1 init = Ret (tv, xv) /\ length tv = S N /\ length xv = S N /\
    forall i, (i <= N)%nat -> exists g, is_col (nth i xv (mkMatrix 0 0 [])) m g /\ (forall l, (l < m)%nat -> fvalid (g l) /\ ffin (g l) = true) /\
        within m (fun l => fval (g l) - y l (fval (nth i tv zero))) (a ^ i * (delta + INR i * d)).
Proof.
  intros Hi Hv H0. destruct (guarded_returns init g0 Hi Hv H0) as (tv & xv & E).
  destruct (fixed_solve_f64 h t0 t1 M Vh V0 V1 Fh F0 F1 Hh Ht M0 M1 MB HQ step init tv xv E) as (N & HN & _ & L1 & L2 & T0 & X0 & HT & HS).
  pose proof (count_n h t0 t1 n Hn Hn48 N HN) as HNn. exists N, tv, xv. split; [exact HNn|]. split; [exact E|]. split; [exact L1|]. split; [exact L2|].
  induction i as [|i IH]; intros Hi1.
  - rewrite T0, X0. exists g0. split; [exact Hi|]. split; [exact Hv|]. cbn [pow INR]. intros l Hl. specialize (H0 l Hl). cbv beta in *. lra.
  - destruct (IH ltac:(lia)) as (g & Hg & Hgv & Hge). rewrite (HT i) in Hge by lia.
    destruct (guarded_step i _ g ltac:(lia) Hg Hgv Hge) as (x' & g' & E' & Hg' & Hgv' & Hge').
    pose proof (HS i ltac:(lia)) as ES. rewrite (HT i) in ES by lia. rewrite E' in ES. injection ES as <-. rewrite (HT (S i)) by lia. exists g'. auto.
Qed.
End Driver.

(** ** The real root of the step equation *)
Lemma tube_root (F : R -> R) (x s c R0 L : R) : 0 < R0 -> 0 <= L -> Rabs s * L <= 1 / 2 ->
  (forall z z', Rabs (z - c) <= 2 * R0 -> Rabs (z' - c) <= 2 * R0 -> Rabs (F z - F z') <= L * Rabs (z - z')) ->
  Rabs (x + s * F c - c) < R0 / 2 ->
  exists r, Rabs (r - c) <= R0 /\ x + s * F r - r = 0 /\ Rabs (r - c) * (1 - Rabs s * L) <= Rabs (x + s * F c - c).
Proof.
  intros HR L0 HsL HL HG.
  assert (Cc : Rabs (c - c) <= 2 * R0) by (rewrite Rminus_diag_eq, Rabs_R0 by reflexivity; lra).
  assert (SL : forall z z', Rabs (z - c) <= 2 * R0 -> Rabs (z' - c) <= 2 * R0 -> Rabs (s * F z - s * F z') <= 1 / 2 * Rabs (z - z')).
  { intros z z' Hz Hz'. rewrite <- Rmult_minus_distr_l, Rabs_mult. pose proof (HL z z' Hz Hz'). pose proof (Rabs_pos s). pose proof (Rabs_pos (z - z')).
    apply Rle_trans with (Rabs s * (L * Rabs (z - z'))); [apply Rmult_le_compat_l; assumption|]. rewrite <- Rmult_assoc. apply Rmult_le_compat_r; assumption. }
  destruct (Ranalysis5.IVT_interv (fun z => z - x - s * F z) (c - R0) (c + R0)) as (r & (Hr1 & Hr2) & E).
  - intros z (Hz1 & Hz2). assert (Iz : Rabs (z - c) <= R0) by (apply Rabs_le; lra).
    intros eps He. exists (Rmin R0 (eps / 2)). split; [apply Rmin_glb_lt; lra|]. intros z' (_ & Hd). cbn [dist R_met] in *. unfold R_dist in *.
    pose proof (Rmin_l R0 (eps / 2)). pose proof (Rmin_r R0 (eps / 2)).
    assert (Iz' : Rabs (z' - c) <= 2 * R0). { replace (z' - c) with ((z' - z) + (z - c)) by ring. eapply Rle_trans; [apply Rabs_triang|]. lra. }
    pose proof (SL z' z Iz' ltac:(lra)) as S1. replace (z' - x - s * F z' - (z - x - s * F z)) with ((z' - z) + - (s * F z' - s * F z)) by ring.
    eapply Rle_lt_trans; [apply Rabs_triang|]. rewrite Rabs_Ropp. pose proof (Rabs_pos (z' - z)). lra.
  - lra.
  - assert (I1 : Rabs (c - R0 - c) <= 2 * R0) by (replace (c - R0 - c) with (- R0) by ring; rewrite Rabs_Ropp, Rabs_pos_eq; lra).
    pose proof (SL _ _ I1 Cc) as S1. replace (c - R0 - c) with (- R0) in S1 by ring. rewrite Rabs_Ropp, (Rabs_pos_eq R0) in S1 by lra. apply Rabs_le_inv in S1. apply Rabs_def2 in HG. lra.
  - assert (I1 : Rabs (c + R0 - c) <= 2 * R0) by (replace (c + R0 - c) with R0 by ring; rewrite Rabs_pos_eq; lra).
    pose proof (SL _ _ I1 Cc) as S1. replace (c + R0 - c) with R0 in S1 by ring. rewrite (Rabs_pos_eq R0) in S1 by lra. apply Rabs_le_inv in S1. apply Rabs_def2 in HG. lra.
  - assert (Ir : Rabs (r - c) <= R0) by (apply Rabs_le; lra). exists r. split; [exact Ir|]. split; [lra|].
    pose proof (HL r c ltac:(lra) Cc) as LL. replace (x + s * F c - c) with ((r - c) + - (s * (F r - F c))) by lra.
    pose proof (Rabs_triang_inv (r - c) (s * (F r - F c))) as T. rewrite Rabs_mult in T.
    assert (Rabs s * Rabs (F r - F c) <= Rabs s * (L * Rabs (r - c))) by (apply Rmult_le_compat_l; [apply Rabs_pos|exact LL]).
    change ((r - c) + - (s * (F r - F c))) with ((r - c) - s * (F r - F c)). nra.
Qed.

(** ** The step equation in f64 *)
Lemma ie_eval_1 (f : f64 -> vector f64 -> outcome (vector f64)) t x s z v : f t (mkMatrix 1 1 [z]) = Ret (mkMatrix 1 1 [v]) ->
  ie_eval f t (mkMatrix 1 1 [x]) s (mkMatrix 1 1 [z]) = Ret (mkMatrix 1 1 [sub (add x (mul v s)) z]).
Proof. intros E. unfold ie_eval. rewrite E. reflexivity. Qed.
Lemma ie_jac_1 (jac : f64 -> vector f64 -> outcome (matrix f64)) t s z v : jac t (mkMatrix 1 1 [z]) = Ret (mkMatrix 1 1 [v]) ->
  ie_jac jac t s (mkMatrix 1 1 [z]) = Ret (mkMatrix 1 1 [sub (mul v s) one]).
Proof. intros E. unfold ie_jac. rewrite E. reflexivity. Qed.

Lemma triv_abs u v e : Rabs (u - v) <= e -> Rabs u <= Rabs v + e.
Proof. intros H. replace u with ((u - v) + v) by ring. eapply Rle_trans; [apply Rabs_triang|]. lra. Qed.

Lemma eval_err x s z v FZ X w eps : fgood x -> fgood s -> fgood z -> fgood v -> 1 <= X -> X <= bpow radix2 1000 -> Rabs (fval x) <= X -> Rabs (fval z) <= X ->
  Rabs (fval s) <= w -> Rabs (fval v - FZ) <= eps -> w * Rabs (fval v) <= X ->
  fgood (sub (add x (mul v s)) z) /\ Rabs (fval (sub (add x (mul v s)) z) - (fval x + fval s * FZ - fval z)) <= w * eps + 10 * uro * X.
Proof.
  intros (Vx & Fx) (Vs & Fs) (Vz & Fz) (Vv & Fv) X1 XB Bx Bz Bs Ev WV.
  pose proof uro_pos as U. pose proof uro_val as UV. assert (U1 : uro <= / 1024) by (rewrite UV; lra). pose proof eta64_pos as T0.
  assert (TU : eta64 <= uro) by (unfold eta64, uro; apply bpow_le; lia).
  assert (B4 : 8 * bpow radix2 1000 <= bpow radix2 1023). { change 8 with (bpow radix2 3). rewrite <- bpow_plus. apply bpow_le. lia. }
  assert (VS : Rabs (fval v * fval s) <= X). { rewrite Rabs_mult. eapply Rle_trans; [|exact WV]. rewrite Rmult_comm. apply Rmult_le_compat_r; [apply Rabs_pos|exact Bs]. }
  destruct (fmul_ok v s Vv Vs Fv Fs ltac:(lra)) as (V1 & F1 & E1). set (p := mul v s) in *.
  assert (UX : 0 <= uro * X) by (apply Rmult_le_pos; lra). assert (UX1 : uro * X <= / 1024 * X) by (apply Rmult_le_compat_r; lra).
  assert (uX : uro <= uro * X) by (rewrite <- (Rmult_1_r uro) at 1; apply Rmult_le_compat_l; lra).
  assert (E1' : Rabs (fval p - fval v * fval s) <= 2 * (uro * X)). { eapply Rle_trans; [exact E1|]. assert (uro * Rabs (fval v * fval s) <= uro * X) by (apply Rmult_le_compat_l; lra). lra. }
  pose proof (triv_abs _ _ _ E1') as Bp.
  assert (S1 : Rabs (fval x + fval p) <= 5 / 2 * X) by (eapply Rle_trans; [apply Rabs_triang|]; lra).
  destruct (fadd_ok x p Vx V1 Fx F1 ltac:(lra)) as (V2 & F2 & E2). set (q := add x p) in *.
  assert (E2' : Rabs (fval q - (fval x + fval p)) <= 5 / 2 * (uro * X)). { eapply Rle_trans; [exact E2|]. assert (uro * Rabs (fval x + fval p) <= uro * (5 / 2 * X)) by (apply Rmult_le_compat_l; lra). lra. }
  pose proof (triv_abs _ _ _ E2') as Bq.
  assert (S2 : Rabs (fval q - fval z) <= 4 * X). { replace (fval q - fval z) with (fval q + - fval z) by ring. eapply Rle_trans; [apply Rabs_triang|]. rewrite Rabs_Ropp. lra. }
  destruct (fsub_ok q z V2 Vz F2 Fz ltac:(lra)) as (V3 & F3 & E3). split; [split; assumption|]. set (r := sub q z) in *.
  assert (E3' : Rabs (fval r - (fval q - fval z)) <= 4 * (uro * X)). { eapply Rle_trans; [exact E3|]. assert (uro * Rabs (fval q - fval z) <= uro * (4 * X)) by (apply Rmult_le_compat_l; lra). lra. }
  assert (E4 : Rabs (fval s * (fval v - FZ)) <= w * eps). { rewrite Rabs_mult. apply Rmult_le_compat; [apply Rabs_pos|apply Rabs_pos|exact Bs|exact Ev]. }
  replace (fval r - (fval x + fval s * FZ - fval z)) with ((fval r - (fval q - fval z)) + (fval q - (fval x + fval p)) + (fval p - fval v * fval s) + fval s * (fval v - FZ)) by ring.
  eapply Rle_trans; [apply Rabs_triang|]. eapply Rle_trans; [apply Rplus_le_compat_r, Rabs_triang|]. eapply Rle_trans; [apply Rplus_le_compat_r, Rplus_le_compat_r, Rabs_triang|]. lra.
Qed.
Lemma jac_err s v JZ w epsj : fgood s -> fgood v -> Rabs (fval s) <= w -> Rabs (fval v - JZ) <= epsj -> w * Rabs (fval v) <= 1 ->
  fgood (sub (mul v s) one) /\ Rabs (fval (sub (mul v s) one) - (fval s * JZ - 1)) <= w * epsj + 6 * uro.
Proof.
  intros (Vs & Fs) (Vv & Fv) Bs Ev WV.
  pose proof uro_pos as U. pose proof uro_val as UV. assert (U1 : uro <= / 1024) by (rewrite UV; lra). pose proof eta64_pos as T0.
  assert (TU : eta64 <= uro) by (unfold eta64, uro; apply bpow_le; lia).
  assert (B4 : 8 <= bpow radix2 1023). { change 8 with (bpow radix2 3). apply bpow_le. lia. }
  assert (VS : Rabs (fval v * fval s) <= 1). { rewrite Rabs_mult. eapply Rle_trans; [|exact WV]. rewrite Rmult_comm. apply Rmult_le_compat_r; [apply Rabs_pos|exact Bs]. }
  destruct (fmul_ok v s Vv Vs Fv Fs ltac:(lra)) as (V1 & F1 & E1). set (p := mul v s) in *.
  assert (E1' : Rabs (fval p - fval v * fval s) <= 2 * uro). { eapply Rle_trans; [exact E1|]. assert (uro * Rabs (fval v * fval s) <= uro * 1) by (apply Rmult_le_compat_l; lra). lra. }
  pose proof (triv_abs _ _ _ E1') as Bp. assert (O1 : fvalid (one : f64)) by reflexivity. assert (OV : fval (one : f64) = 1) by (unfold fval, SF2R, F2R; cbn; lra).
  assert (S2 : Rabs (fval p - fval one) <= 3). { rewrite OV. replace (fval p - 1) with (fval p + - (1)) by ring. eapply Rle_trans; [apply Rabs_triang|]. rewrite Rabs_Ropp, Rabs_R1. lra. }
  destruct (fsub_ok p one V1 O1 F1 eq_refl ltac:(lra)) as (V3 & F3 & E3). split; [split; assumption|]. set (r := sub p one) in *. rewrite OV in *.
  assert (E3' : Rabs (fval r - (fval p - 1)) <= 3 * uro). { eapply Rle_trans; [exact E3|]. assert (uro * Rabs (fval p - 1) <= uro * 3) by (apply Rmult_le_compat_l; lra). lra. }
  assert (E4 : Rabs (fval s * (fval v - JZ)) <= w * epsj). { rewrite Rabs_mult. apply Rmult_le_compat; [apply Rabs_pos|apply Rabs_pos|exact Bs|exact Ev]. }
  replace (fval r - (fval s * JZ - 1)) with ((fval r - (fval p - 1)) + (fval p - fval v * fval s) + fval s * (fval v - JZ)) by ring.
  eapply Rle_trans; [apply Rabs_triang|]. eapply Rle_trans; [apply Rplus_le_compat_r, Rabs_triang|]. lra.
Qed.

Lemma quot_le u A D : 0 <= A -> (1 + u) ^ 2 <= 2 -> 2 / 5 <= D -> (1 + u) ^ 2 * A / D <= 5 * A.
Proof.
  intros HA HU HD. assert (0 < D) by lra. assert (I : / D <= 5 / 2). { replace (5 / 2) with (/ (2 / 5)) by field. apply Rinv_le_contravar; lra. }
  assert (0 < / D) by now apply Rinv_0_lt_compat. unfold Rdiv. assert (0 <= (1 + u) ^ 2 * A <= 2 * A) by (split; [apply Rmult_le_pos; [apply pow2_ge_0|exact HA]|apply Rmult_le_compat_r; assumption]).
  replace (5 * A) with (2 * A * (5 / 2)) by field. apply Rmult_le_compat; lra.
Qed.

Section Step.
Variable pw : f64 -> f64 -> f64.
Variables (iters : nat) (tol : f64) (f : f64 -> vector f64 -> outcome (vector f64)) (jac : f64 -> vector f64 -> outcome (matrix f64)).
Variables (F J : R -> R -> R) (y y2 : R -> R) (lo hi rho B L K eps epsj X w M M2 theta : R).
Hypothesis HE : evaluates_tube f F lo hi y rho eps.
Hypothesis HJ : evaluates_tube jac J lo hi y rho epsj.
Hypothesis HT : regular_tube F J lo hi y rho B L K.
Hypothesis D1 : forall r, lo <= r <= hi -> is_derive y r (F r (y r)).
Hypothesis D2 : forall r, lo <= r <= hi -> is_derive (fun t => F t (y t)) r (y2 r).
Hypothesis B2 : forall r, lo <= r <= hi -> Rabs (y2 r) <= M2.
Hypothesis HX : forall r, lo <= r <= hi -> Rabs (y r) + rho <= X.
Hypothesis R0 : 0 < rho. Hypothesis L0 : 0 <= L. Hypothesis K0 : 0 <= K. Hypothesis E0 : 0 <= eps. Hypothesis J0 : 0 <= epsj. Hypothesis W0 : 0 <= w. Hypothesis M0 : 0 <= M.
Hypothesis X1 : 1 <= X. Hypothesis XB : X <= bpow radix2 999.
Hypothesis WL : w * L <= 1 / 2. Hypothesis WB : w * B <= rho / 4. Hypothesis WE : w * eps <= rho / 4. Hypothesis WK : w * K * rho <= 1 / 5. Hypothesis WJ : w * epsj <= 1 / 25.
Let l := M2 / 2 * w ^ 2 + 2 * uro * M * B.
Let c := 5 * (w * eps) + 60 * uro * X.
Hypothesis C8 : 8 * c <= rho.
Hypothesis HU : length_usable pw rho theta.
Hypothesis Gt : fgood tol.
Hypothesis It : (0 < iters)%nat.
Hypothesis HTol : 4 * ((1 / 2) ^ (iters - 1) * (w * B)) + 11 * c + theta < fval tol.

Lemma ie_step_f64 t s x e : fgood t -> lo <= fval t <= hi -> fgood s -> Rabs (fval s) <= w -> ffin (add t s) = true ->
  lo <= fval (add t s) <= hi -> Rabs (fval (add t s) - fval t) <= w -> Rabs (fval s - (fval (add t s) - fval t)) <= 2 * uro * M ->
  fgood x -> 0 <= e -> e + l < rho / 8 -> Rabs (fval x - y (fval t)) <= e ->
  exists x', @ie_step f64 F64_ops (F64_pops pw) iters tol f jac t (mkMatrix 1 1 [x]) s = Ret (mkMatrix 1 1 [x']) /\ fgood x' /\
    Rabs (fval x' - y (fval (add t s))) <= (1 + 2 * (L * w)) * e + (2 * l + 6 * (fval tol + theta) + 2 * c).
Proof.
  intros (Vt & Ft) Bt Gs Bs Fa Ba Bw Bd Gx E00 El Ex.
  pose proof uro_pos as U. pose proof uro_val as UV. assert (U1 : uro <= / 1024) by (rewrite UV; lra). pose proof eta64_pos as T0.
  assert (TU : eta64 <= uro) by (unfold eta64, uro; apply bpow_le; lia).
  set (t' := add t s) in *. assert (Gt' : fgood t') by (split; [apply fvalid_add; [exact Vt|apply Gs]|exact Fa]).
  set (T := fval t) in *. set (T' := fval t') in *. set (sv := fval s) in *. set (xv := fval x) in *. set (c0 := y T') in *.
  assert (Iy : forall r, lo <= r <= hi -> Rabs (y r - y r) <= rho) by (intros; rewrite Rminus_diag_eq, Rabs_R0 by reflexivity; lra).
  assert (B0 : 0 <= B) by (eapply Rle_trans; [apply Rabs_pos|apply (HT T' (y T') (y T') Ba (Iy _ Ba) (Iy _ Ba))]).
  (* the residual at the solution *)
  assert (Res : Rabs (xv + sv * F T' c0 - c0) <= e + l).
  { pose proof (taylor2 y (fun t => F t (y t)) y2 lo hi M2 T' (T - T') D1 D2 B2 Ba ltac:(replace (T' + (T - T')) with T by ring; exact Bt)) as TY. replace (T' + (T - T')) with T in TY by ring.
    assert (Q : M2 / 2 * (T - T') ^ 2 <= M2 / 2 * w ^ 2). { apply Rmult_le_compat_l; [pose proof (B2 T' Ba); pose proof (Rabs_pos (y2 T')); lra|]. rewrite <- (Rabs_right ((T - T') ^ 2)) by (apply Rle_ge, pow2_ge_0). rewrite <- RPow_abs. apply pow_incr. split; [apply Rabs_pos|]. rewrite Rabs_minus_sym. exact Bw. }
    assert (Q2 : Rabs ((sv - (T' - T)) * F T' c0) <= 2 * uro * M * B). { rewrite Rabs_mult. apply Rmult_le_compat; [apply Rabs_pos|apply Rabs_pos|exact Bd|]. apply (HT T' (y T') (y T') Ba (Iy _ Ba) (Iy _ Ba)). }
    replace (xv + sv * F T' c0 - c0) with ((xv - y T) + (y T - y T' - (T - T') * F T' (y T')) + (sv - (T' - T)) * F T' c0) by (unfold c0; ring).
    eapply Rle_trans; [apply Rabs_triang|]. eapply Rle_trans; [apply Rplus_le_compat_r, Rabs_triang|]. unfold l. lra. }
  assert (SL : Rabs sv * L <= w * L) by (apply Rmult_le_compat_r; assumption).
  destruct (tube_root (F T') xv sv c0 (rho / 4) L) as (r & Ir & Er & Br); try lra.
  { intros z z' Hz Hz'. apply (HT T' z z' Ba); fold c0; lra. }
  assert (Xc : Rabs c0 + rho <= X) by (apply HX; exact Ba).
  assert (Ar : Rabs r <= Rabs c0 + rho / 4) by (apply triv_abs; exact Ir).
  assert (Ax : Rabs xv <= X). { pose proof (triv_abs _ _ _ Ex). pose proof (HX T Bt). assert (0 <= l) by (unfold l; apply Rplus_le_le_0_compat; [apply Rmult_le_pos; [pose proof (B2 T' Ba); pose proof (Rabs_pos (y2 T')); lra|apply pow2_ge_0]|repeat apply Rmult_le_pos; lra]). lra. }
  assert (Hxr : Rabs (xv - r) <= w * B).
  { replace (xv - r) with (- (sv * F T' r)) by lra. rewrite Rabs_Ropp, Rabs_mult. apply Rmult_le_compat; [apply Rabs_pos|apply Rabs_pos|exact Bs|].
    apply (HT T' r r Ba); fold c0; lra. }
  assert (X0 : 0 <= uro * X) by (apply Rmult_le_pos; lra). assert (uX : uro <= uro * X) by (rewrite <- (Rmult_1_r uro) at 1; apply Rmult_le_compat_l; lra).
  assert (U2 : (1 + uro) ^ 2 <= 2) by (assert (0 <= uro * uro) by (apply Rmult_le_pos; lra); nra).
  assert (XB2 : 2 * X <= bpow radix2 1000). { change 1000%Z with (1 + 999)%Z. rewrite bpow_plus. change (bpow radix2 1) with 2. lra. }
  assert (WEp : 0 <= w * eps) by (apply Rmult_le_pos; lra). assert (WJp : 0 <= w * epsj) by (apply Rmult_le_pos; lra). assert (WKp : 0 <= w * K) by (apply Rmult_le_pos; lra).
  assert (In : forall z, Rabs (z - r) <= rho / 4 -> Rabs (z - c0) <= rho / 2). { intros z Hz. replace (z - c0) with ((z - r) + (r - c0)) by ring. eapply Rle_trans; [apply Rabs_triang|]. lra. }
  destruct (newton_f64 pw (ie_eval f t' (mkMatrix 1 1 [x]) s) (ie_jac jac t' s) (fun z => xv + sv * F T' z - z) (fun z => sv * J T' z - 1) r (rho / 4) (1 / 2) (w * K)
    (w * eps + 10 * uro * X) (w * epsj + 6 * uro) (5 * (w * K)) (5 * (w * epsj + 6 * uro) + 2 * uro) c theta tol) with (iters := iters) (a0 := x) as (res & ER & HA & HN).
  - intros z Hz. pose proof (In z Hz) as Hz'. destruct (HT T' z r Ba ltac:(fold c0; lra) ltac:(fold c0; lra)) as (_ & BJ & _ & BK). split.
    + assert (Rabs (sv * J T' z) <= w * L) by (rewrite Rabs_mult; apply Rmult_le_compat; [apply Rabs_pos|apply Rabs_pos|exact Bs|exact BJ]).
      pose proof (Rabs_triang_inv 1 (sv * J T' z)) as TI. rewrite Rabs_R1 in TI. rewrite Rabs_minus_sym in TI. lra.
    + replace (xv + sv * F T' z - z - (sv * J T' z - 1) * (z - r)) with (sv * (F T' z - F T' r - J T' z * (z - r))) by lra.
      rewrite Rabs_mult, Rmult_assoc. apply Rmult_le_compat; [apply Rabs_pos|apply Rabs_pos|exact Bs|exact BK].
  - intros z Gz Hz. pose proof (In _ Hz) as Hz'. destruct (HE t' z Gt' Ba Gz ltac:(fold T' c0; lra)) as (v & Ev & Gv & Bv). fold T' in Bv.
    destruct (HT T' (fval z) r Ba ltac:(fold c0; lra) ltac:(fold c0; lra)) as (BF & _).
    pose proof (triv_abs _ _ _ Bv) as Av. pose proof (triv_abs _ _ _ Hz') as Az.
    assert (w * Rabs (fval v) <= X). { apply Rle_trans with (w * (B + eps)); [apply Rmult_le_compat_l; lra|]. pose proof (Rabs_pos c0). lra. }
    destruct (eval_err x s z v (F T' (fval z)) X w eps Gx Gs Gz Gv X1) as (G & EE); try assumption; try lra.
    exists (sub (add x (mul v s)) z). split; [now apply ie_eval_1|]. split; [exact G|exact EE].
  - intros z Gz Hz. pose proof (In _ Hz) as Hz'. destruct (HJ t' z Gt' Ba Gz ltac:(fold T' c0; lra)) as (v & Ev & Gv & Bv). fold T' in Bv.
    destruct (HT T' (fval z) r Ba ltac:(fold c0; lra) ltac:(fold c0; lra)) as (_ & BJ & _).
    pose proof (triv_abs _ _ _ Bv) as Av.
    assert (w * Rabs (fval v) <= 1). { apply Rle_trans with (w * (L + epsj)); [apply Rmult_le_compat_l; lra|]. lra. }
    destruct (jac_err s v (J T' (fval z)) w epsj Gs Gv) as (G & EE); try assumption.
    exists (sub (mul v s) one). split; [now apply ie_jac_1|]. split; [exact G|exact EE].
  - exact WKp.
  - lra.
  - lra.
  - lra.
  - pose proof (Rabs_pos c0). lra.
  - replace (4 * (rho / 4)) with rho by field. exact HU.
  - exact Gt.
  - apply quot_le; lra.
  - assert ((1 + uro) ^ 2 * (w * epsj + 6 * uro) / (1 / 2 - (w * epsj + 6 * uro)) <= 5 * (w * epsj + 6 * uro)) by (apply quot_le; lra). lra.
  - assert ((1 + uro) ^ 2 * (w * eps + 10 * uro * X) / (1 / 2 - (w * epsj + 6 * uro)) <= 5 * (w * eps + 10 * uro * X)) by (apply quot_le; lra).
    assert (uro * Rabs r <= uro * X) by (apply Rmult_le_compat_l; lra). unfold c. lra.
  - rewrite UV. rewrite UV in U1. replace (5 * (w * K) * (rho / 4)) with (5 / 4 * (w * K * rho)) by field. lra.
  - lra.
  - exact Gx.
  - fold xv. lra.
  - destruct (HN (iters - 1)%nat ltac:(lia)) as (x1 & ->).
    { fold xv. assert (C0 : 0 <= c) by (unfold c; lra).
      pose proof (newton_bound_linear (5 * (w * K)) (5 * (w * epsj + 6 * uro) + 2 * uro) c (Rabs (xv - r)) (rho / 4) ltac:(lra) ltac:(lra) C0 ltac:(split; [apply Rabs_pos|lra])
        ltac:(rewrite UV; rewrite UV in U1; replace (5 * (w * K) * (rho / 4)) with (5 / 4 * (w * K * rho)) by field; lra) ltac:(lra) (iters - 1)%nat) as (_ & NB).
      assert ((1 / 2) ^ (iters - 1) * Rabs (xv - r) <= (1 / 2) ^ (iters - 1) * (w * B)) by (apply Rmult_le_compat_l; [apply pow_le; lra|exact Hxr]). lra. }
    destruct (HA x1 eq_refl) as (a & -> & Ga & Ea). exists a. split; [|split; [exact Ga|]].
    + unfold ie_step. cbv zeta. fold t'. rewrite ER. reflexivity.
    + fold c0; replace (fval a - c0) with ((fval a - r) + (r - c0)) by ring. eapply Rle_trans; [apply Rabs_triang|].
      assert (Bl : Rabs (r - c0) <= (1 + 2 * (L * w)) * (e + l)).
      { set (q := Rabs (r - c0)) in *. set (k := Rabs sv * L) in *. assert (Q0 : 0 <= q) by apply Rabs_pos. assert (Kp : 0 <= k) by (apply Rmult_le_pos; [apply Rabs_pos|exact L0]).
        assert (El0 : 0 <= e + l) by (eapply Rle_trans; [apply Rabs_pos|exact Res]).
        assert (Q1 : q <= (1 + 2 * k) * (e + l)).
        { assert (q * (1 - k) <= e + l) by lra. assert (q * 1 <= q * ((1 - k) * (1 + 2 * k))) by (apply Rmult_le_compat_l; [exact Q0|nra]).
          assert ((1 + 2 * k) * (q * (1 - k)) <= (1 + 2 * k) * (e + l)) by (apply Rmult_le_compat_l; lra). lra. }
        eapply Rle_trans; [exact Q1|]. apply Rmult_le_compat_r; [exact El0|]. lra. }
      assert (l0 : 0 <= l) by (unfold l; apply Rplus_le_le_0_compat; [apply Rmult_le_pos; [pose proof (B2 T' Ba); pose proof (Rabs_pos (y2 T')); lra|apply pow2_ge_0]|repeat apply Rmult_le_pos; lra]).
      assert (L * w * l <= 1 / 2 * l) by (apply Rmult_le_compat_r; lra). lra.
Qed.
End Step.

Lemma col_1 (x : vector f64) g : is_col x 1 g -> x = mkMatrix 1 1 [g 0%nat].
Proof.
  intros H. pose proof (col_get _ _ _ 0 H ltac:(lia)) as G. destruct x as [r c l]. destruct H as (D & Hl & _). cbn [data] in Hl. injection D as -> ->.
  destruct l as [|v [|u l]]; try discriminate Hl. cbn in G. injection G as ->. reflexivity.
Qed.
Lemma is_col_1 (v : f64) : is_col (mkMatrix 1 1 [v]) 1 (fun _ => v).
Proof. split; [reflexivity|]. split; [reflexivity|]. intros i j Hi Hj. replace i with 0%nat by lia. replace j with 0%nat by lia. reflexivity. Qed.

Lemma implicit_f64 pw h t0 t1 M n iters tol f jac F J y y2 rho B L K eps epsj X M2 theta delta x0 :
  fgood h -> fgood t0 -> fgood t1 -> 0 < fval h -> fval t0 <= fval t1 -> Rabs (fval t0) <= M -> Rabs (fval t1) <= M -> M <= bpow radix2 1000 ->
  (fval t1 - fval t0) / fval h + 2 <= INR n -> INR n <= IZR (2 ^ 47) ->
  let w := fval h + 4 * (INR n + 1) * uro * M in
  let lo := fval t0 - 4 * INR n * uro * M in let hi := fval t1 + 4 * INR n * uro * M in
  let c := 5 * (w * eps) + 60 * uro * X in
  let d := M2 * w ^ 2 + 4 * uro * M * B + 6 * (fval tol + theta) + 2 * c in
  evaluates_tube f F lo hi y rho eps -> evaluates_tube jac J lo hi y rho epsj -> regular_tube F J lo hi y rho B L K ->
  (forall t, lo <= t <= hi -> is_derive y t (F t (y t)) /\ is_derive (fun t => F t (y t)) t (y2 t) /\ Rabs (y2 t) <= M2 /\ Rabs (y t) + rho <= X) ->
  0 < rho -> 0 <= L -> 0 <= K -> 0 <= eps -> 0 <= epsj -> 0 <= theta -> 0 <= delta -> 1 <= X -> X <= bpow radix2 999 ->
  w * L <= 1 / 2 -> w * B <= rho / 4 -> w * K * rho <= 1 / 5 -> w * epsj <= 1 / 25 ->
  length_usable pw rho theta -> fgood tol -> (0 < iters)%nat -> 4 * ((1 / 2) ^ (iters - 1) * (w * B)) + 11 * c + theta < fval tol ->
  fgood x0 -> Rabs (fval x0 - y (fval t0)) <= delta ->
  exp (INR n * (2 * (L * w))) * (delta + INR n * d) <= rho / 16 ->
  exists N tv xv, (N <= n)%nat /\ fixed_solve h (@ie_step f64 F64_ops (F64_pops pw) iters tol f jac) t0 t1 (mkMatrix 1 1 [x0]) = Ret (tv, xv) /\
    length tv = S N /\ length xv = S N /\
    forall i, (i <= N)%nat -> exists a, nth i xv (mkMatrix 0 0 []) = mkMatrix 1 1 [a] /\ fgood a /\
      Rabs (fval a - y (fval (nth i tv zero))) <= exp (INR i * (2 * (L * w))) * (delta + INR i * d).
Proof.
  intros (Vh & Fh) (V0 & F0) (V1 & F1) Hh Ht M0 M1 MB Hn Hn47 w lo hi c d HE HJ HT HY R0 L0 K0 E0 J0 T0 D0 X1 XB WL WB WK WJ HU Gt It HTol Gx Hd Hrho.
  assert (MP : 0 <= M) by (pose proof (Rabs_pos (fval t0)); lra). pose proof uro_pos as U0. pose proof (pos_INR n) as Pn.
  assert (Pt : 0 <= 4 * INR n * uro * M) by (repeat apply Rmult_le_pos; lra).
  assert (W0 : 0 <= w) by (unfold w; assert (0 <= 4 * (INR n + 1) * uro * M) by (repeat apply Rmult_le_pos; lra); lra).
  assert (Bt0 : lo <= fval t0 <= hi) by (unfold lo, hi; lra). destruct (HY _ Bt0) as (_ & _ & B2 & _).
  assert (M20 : 0 <= M2) by (eapply Rle_trans; [apply Rabs_pos|exact B2]).
  assert (B0 : 0 <= B). { eapply Rle_trans; [apply Rabs_pos|]. apply (HT (fval t0) (y (fval t0)) (y (fval t0)) Bt0); rewrite Rminus_diag_eq, Rabs_R0 by reflexivity; lra. }
  assert (C0 : 0 <= c). { unfold c. assert (0 <= w * eps) by (apply Rmult_le_pos; lra). assert (0 <= uro * X) by (apply Rmult_le_pos; lra). lra. }
  assert (WE0 : 0 <= w * eps) by (apply Rmult_le_pos; lra).
  assert (WEc : w * eps <= c). { unfold c. assert (0 <= uro * X) by (apply Rmult_le_pos; lra). lra. }
  assert (P1 : 0 <= M2 * w ^ 2) by (apply Rmult_le_pos; [exact M20|apply pow2_ge_0]). assert (P2 : 0 <= 4 * uro * M * B) by (repeat apply Rmult_le_pos; lra).
  assert (Tp : 0 <= fval tol). { assert (0 <= (1 / 2) ^ (iters - 1) * (w * B)) by (apply Rmult_le_pos; [apply pow_le; lra|apply Rmult_le_pos; lra]). lra. }
  assert (Pd : 0 <= d) by (unfold d; lra). assert (LW : 0 <= 2 * (L * w)) by (assert (0 <= L * w) by (apply Rmult_le_pos; lra); lra).
  assert (Q0 : 0 <= (fval t1 - fval t0) / fval h) by (apply Rmult_le_pos; [lra|left; now apply Rinv_0_lt_compat]).
  assert (ND : 2 * d <= rho / 16).
  { eapply Rle_trans; [|exact Hrho]. assert (1 <= exp (INR n * (2 * (L * w)))). { pose proof (exp_ineq1_le (INR n * (2 * (L * w)))). assert (0 <= INR n * (2 * (L * w))) by (apply Rmult_le_pos; lra). lra. }
    assert (2 * d <= INR n * d) by (apply Rmult_le_compat_r; lra). assert (1 * (delta + INR n * d) <= exp (INR n * (2 * (L * w))) * (delta + INR n * d)) by (apply Rmult_le_compat_r; lra). lra. }
  change (IZR (2 ^ 47)) with 140737488355328 in Hn47.
  destruct (guarded_driver h t0 t1 M Vh V0 V1 Fh F0 F1 Hh Ht M0 M1 MB ltac:(change (IZR (2 ^ 47)) with 140737488355328; lra) n Hn ltac:(change (IZR (2 ^ 48)) with 281474976710656; lra)
    1%nat (fun _ => y) (1 + 2 * (L * w)) d delta (rho / 16) (@ie_step f64 F64_ops (F64_pops pw) iters tol f jac)) with (init := mkMatrix 1 1 [x0]) (g0 := fun _ : nat => x0) as (N & tv & xv & HN & E & L1 & L2 & H); try assumption; try lra.
  - eapply Rle_trans; [|exact Hrho]. apply Rmult_le_compat_r; [assert (0 <= INR n * d) by (apply Rmult_le_pos; lra); lra|]. apply one_plus_pow_le_exp. exact LW.
  - intros t s x g e Vt Ft Bt Vs Fs Bs Fa Ba Bw Bd Hg Hgv He Hge. pose proof (col_1 x g Hg) as ->. destruct (Hgv 0%nat ltac:(lia)) as (Vg & Fg).
    destruct (ie_step_f64 pw iters tol f jac F J y y2 lo hi rho B L K eps epsj X w M M2 theta HE HJ HT) with (t := t) (s := s) (x := g 0%nat) (e := e) as (x' & Ex & Gx' & Bx);
      try assumption; try (split; assumption); try lra; try (intros r Hr; apply (HY r Hr)).
    + unfold d in ND. lra.
    + fold c. unfold d in ND. lra.
    + unfold d in ND. lra.
    + apply (Hge 0%nat). lia.
    + exists (mkMatrix 1 1 [x']), (fun _ => x'). split; [exact Ex|]. split; [apply is_col_1|]. split; [intros l _; exact Gx'|]. intros l _. eapply Rle_trans; [exact Bx|]. unfold d. fold c. lra.
  - apply is_col_1.
  - intros l _. exact Gx.
  - intros l _. exact Hd.
  - exists N, tv, xv. split; [exact HN|]. split; [exact E|]. split; [exact L1|]. split; [exact L2|]. intros i Hi'.
    destruct (H i Hi') as (g & Hg & Hgv & He). exists (g 0%nat). split; [now apply col_1|]. split; [apply (Hgv 0%nat); lia|]. eapply Rle_trans; [apply (He 0%nat); lia|].
    apply Rmult_le_compat_r; [|apply one_plus_pow_le_exp; exact LW]. pose proof (pos_INR i). assert (0 <= INR i * d) by (apply Rmult_le_pos; lra). lra.
Qed.
