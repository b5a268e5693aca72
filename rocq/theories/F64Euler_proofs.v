(** Total error, truncation and rounding, of one-step methods and of the explicit Euler method in binary64. *)
From Coq Require Import Arith List Bool Lia ZArith Reals Lra Psatz SpecFloat.
From Flocq Require Import Core IEEE754.BinarySingleNaN.
From Coquelicot Require Import Coquelicot.
From Verif Require Import Outcome Scalar RealOps Matrix_model Vector_model Int_model Ode_model Matrix_spec Ode_spec OdeConv_spec Matrix_proofs Vector_proofs Ode_proofs
  F64_spec F64Flocq F64Err_proofs F64Grid_proofs F64Ode_spec.
Import ListNotations.
Local Open Scope R_scope.
#[local] Existing Instance Hprec53.

Lemma fmul_ok x y : fvalid x -> fvalid y -> ffin x = true -> ffin y = true -> Rabs (fval x * fval y) <= bpow radix2 1023 ->
  fvalid (mul x y) /\ ffin (mul x y) = true /\ Rabs (fval (mul x y) - fval x * fval y) <= uro * Rabs (fval x * fval y) + eta64.
Proof.
  intros Vx Vy Fx Fy B. destruct (fmul_round x y Vx Vy Fx Fy (no_ov _ B)) as (_ & F). split; [now apply fvalid_mul|]. split; [exact F|].
  apply (fmul_err x y Vx Vy F).
Qed.

(** ** The driver with an arbitrary step *)
Section Driver.
Variables h t0 t1 : f64.
Variable M : R.
Hypothesis Vh : fvalid h. Hypothesis V0 : fvalid t0. Hypothesis V1 : fvalid t1.
Hypothesis Fh : ffin h = true. Hypothesis F0 : ffin t0 = true. Hypothesis F1 : ffin t1 = true.
Hypothesis Hh : 0 < fval h.
Hypothesis Ht : fval t0 <= fval t1.
Hypothesis M0 : Rabs (fval t0) <= M. Hypothesis M1 : Rabs (fval t1) <= M. Hypothesis MB : M <= bpow radix2 1000.
Hypothesis HQ : (fval t1 - fval t0) / fval h <= IZR (2 ^ 47).
Variable n : nat.
Hypothesis Hn : (fval t1 - fval t0) / fval h + 2 <= INR n.
Hypothesis Hn48 : INR n <= IZR (2 ^ 48).
Let w := fval h + 4 * (INR n + 1) * uro * M.
Let lo := fval t0 - 4 * INR n * uro * M.
Let hi := fval t1 + 4 * INR n * uro * M.

Lemma count_n N : Rabs (INR N - (fval t1 - fval t0) / fval h) <= 1 + 3 * uro * ((fval t1 - fval t0) / fval h) + eta64 -> (N <= n)%nat.
Proof.
  intros HN. apply INR_le. apply Rabs_le_inv in HN. change (IZR (2 ^ 47)) with 140737488355328 in HQ.
  assert (eta64 <= / 2) by (unfold eta64; change (/ 2) with (bpow radix2 (-1)); apply bpow_le; lia). rewrite uro_val in HN.
  lra.
Qed.

Lemma time_facts i : (i < n)%nat -> let t := Nat.iter i (fnext h t1) t0 in let s := tmin h (sub t1 t) in
  fvalid t /\ ffin t = true /\ lo <= fval t <= hi /\ fvalid s /\ ffin s = true /\ Rabs (fval s) <= w /\
  fval (fnext h t1 t) = fval (add t s) /\ lo <= fval (add t s) <= hi /\
  Rabs (fval (add t s) - fval t) <= w /\ Rabs (fval s - (fval (add t s) - fval t)) <= 2 * uro * M.
Proof.
  intros Hi t s. pose proof uro_pos as U0. assert (U1 : uro <= / 1000) by (rewrite uro_val; lra).
  assert (MP : 0 <= M) by (pose proof (Rabs_pos (fval t0)); lra).
  assert (Hi' : INR i + 1 <= INR n) by (rewrite <- S_INR; apply le_INR; lia). pose proof (pos_INR i) as Pi.
  assert (HI : INR i <= IZR (2 ^ 48)) by lra. assert (HI' : INR (S i) <= IZR (2 ^ 48)) by (rewrite S_INR; lra).
  destruct (fgrid_err h t0 t1 M Vh V0 V1 Fh F0 F1 Hh Ht M0 M1 MB i HI) as (Vt & Ft & Et). fold t in Vt, Ft, Et.
  destruct (fgrid_err h t0 t1 M Vh V0 V1 Fh F0 F1 Hh Ht M0 M1 MB (S i) HI') as (Va & Fa & Ea).
  cbn [Nat.iter nat_rect] in Va, Fa, Ea. change (nat_rect _ t0 (fun _ => fnext h t1) i) with t in Va, Fa, Ea.
  change (fnext h t1 t) with (add t s) in *. rewrite S_INR in Ea.
  pose proof (fgrid_bound h t0 t1 M Vh V0 V1 Fh F0 F1 Hh Ht M0 M1 MB (S i) HI') as Bn. cbn [Nat.iter nat_rect] in Bn.
  change (nat_rect _ t0 (fun _ => fnext h t1) i) with t in Bn. change (fnext h t1 t) with (add t s) in Bn.
  pose proof (fgrid_bound h t0 t1 M Vh V0 V1 Fh F0 F1 Hh Ht M0 M1 MB i HI) as Bt. fold t in Bt.
  set (uM := uro * M). assert (UM : 0 <= uM) by (unfold uM; apply Rmult_le_pos; lra).
  assert (I1 : INR i * uM <= (INR n - 1) * uM) by (apply Rmult_le_compat_r; lra).
  assert (Gr : forall k, fval t0 <= Rmin (fval t0 + INR k * fval h) (fval t1) <= fval t1).
  { intros k. pose proof (pos_INR k). assert (0 <= INR k * fval h) by (apply Rmult_le_pos; lra). split; [apply Rmin_glb; lra|apply Rmin_r]. }
  pose proof (Gr i) as G1. pose proof (Gr (S i)) as G2. rewrite S_INR in G2. apply Rabs_le_inv in Et. apply Rabs_le_inv in Ea.
  assert (Elo : lo = fval t0 - 4 * (INR n * uM)) by (unfold lo, uM; ring). assert (Ehi : hi = fval t1 + 4 * (INR n * uM)) by (unfold hi, uM; ring).
  assert (Ew : w = fval h + 4 * (INR n * uM) + 4 * uM) by (unfold w, uM; ring).
  replace (4 * INR i * uro * M) with (4 * (INR i * uM)) in Et by (unfold uM; ring).
  replace (4 * (INR i + 1) * uro * M) with (4 * (INR i * uM) + 4 * uM) in Ea by (unfold uM; ring).
  assert (D : Rabs (fval t1 - fval t) <= 17 / 8 * M) by (apply Rabs_le; apply Rabs_le_inv in M1; apply Rabs_le_inv in Bt; lra).
  assert (BM : 4 * M <= bpow radix2 1023) by exact (big_M M MB).
  destruct (fsub_ok t1 t V1 Vt F1 Ft ltac:(lra)) as (Vd & Fd & Ed).
  destruct (tmin_val h (sub t1 t) Vh Vd Fh Fd) as (Vs & Fs & Es). fold s in Vs, Fs, Es.
  assert (Dn : - (4 * (INR n * uM)) <= fval (sub t1 t)).
  { apply Rabs_le_inv in Ed. destruct (Rle_lt_dec 0 (fval t1 - fval t)) as [P|P].
    - rewrite (Rabs_pos_eq _ P) in Ed. assert (uro * (fval t1 - fval t) <= (fval t1 - fval t)) by nra. assert (0 <= INR n * uM) by (apply Rmult_le_pos; lra). lra.
    - rewrite (Rabs_left _ P) in Ed.
      assert (A : fval t - fval t1 <= 4 * (INR i * uM)) by lra. assert (uro * - (fval t1 - fval t) <= 4 * uM).
      { replace (uro * - (fval t1 - fval t)) with (uro * (fval t - fval t1)) by ring. apply Rle_trans with (uro * (4 * (INR i * uM))); [apply Rmult_le_compat_l; lra|].
        replace (uro * (4 * (INR i * uM))) with (uro * INR i * (4 * uM)) by ring. rewrite <- (Rmult_1_l (4 * uM)) at 2. apply Rmult_le_compat_r; [lra|].
        rewrite uro_val. change (IZR (2 ^ 48)) with 281474976710656 in HI. lra. }
      lra. }
  assert (Sb : - (4 * (INR n * uM)) <= fval s <= fval h).
  { rewrite Es. split; [apply Rmin_glb; [|exact Dn]|apply Rmin_l]. assert (0 <= INR n * uM) by (apply Rmult_le_pos; lra). lra. }
  destruct (fadd_err t s Vt Vs Fa) as (_ & _ & _ & E2).
  assert (E3 : Rabs (fval (add t s) - (fval t + fval s)) <= 9 / 8 * uM).
  { eapply Rle_trans; [exact E2|]. replace (9 / 8 * uM) with (uro * (9 / 8 * M)) by (unfold uM; ring). apply Rmult_le_compat_l; lra. }
  assert (Pn : 0 <= INR n * uM) by (apply Rmult_le_pos; lra).
  split; [exact Vt|]. split; [exact Ft|]. split; [lra|]. split; [exact Vs|]. split; [exact Fs|]. split; [apply Rabs_le; lra|]. split; [reflexivity|].
  split; [lra|]. pose proof E3 as E4. apply Rabs_le_inv in E4. split; [apply Rabs_le; lra|].
  replace (2 * uro * M) with (2 * uM) by (unfold uM; ring). apply Rabs_le. lra.
Qed.

(** Error recursion e' = a e + d. *)
Variables (m : nat) (y : nat -> R -> R) (a d delta : R) (rho : R).
Variable step : f64 -> vector f64 -> f64 -> outcome (vector f64).
Hypothesis Ha : 1 <= a. Hypothesis Hd : 0 <= d. Hypothesis Hdl : 0 <= delta.
Hypothesis Hrho : a ^ n * (delta + INR n * d) <= rho.
Hypothesis Hstep : forall (t s : f64) x g e, fvalid t -> ffin t = true -> lo <= fval t <= hi -> fvalid s -> ffin s = true -> Rabs (fval s) <= w ->
  lo <= fval (add t s) <= hi -> Rabs (fval (add t s) - fval t) <= w -> Rabs (fval s - (fval (add t s) - fval t)) <= 2 * uro * M ->
  is_col x m g -> (forall l, (l < m)%nat -> fvalid (g l) /\ ffin (g l) = true) -> 0 <= e <= rho ->
  within m (fun l => fval (g l) - y l (fval t)) e ->
  forall x', step t x s = Ret x' -> exists g', is_col x' m g' /\ (forall l, (l < m)%nat -> fvalid (g' l) /\ ffin (g' l) = true) /\
    within m (fun l => fval (g' l) - y l (fval (add t s))) (a * e + d).
Hypothesis Htotal : forall t x s g, is_col x m g -> exists x' g', step t x s = Ret x' /\ is_col x' m g'.

Lemma pow_step i : a * (a ^ i * (delta + INR i * d)) + d <= a ^ S i * (delta + INR (S i) * d).
Proof. cbn [pow]. rewrite S_INR. assert (1 <= a * a ^ i) by (change (1 <= a ^ S i); apply pow_R1_Rle; exact Ha). nra. Qed.
Lemma pow_mono i : (i <= n)%nat -> 0 <= a ^ i * (delta + INR i * d) <= rho.
Proof.
  intros Hi. pose proof (pos_INR i). pose proof (le_INR _ _ Hi). assert (0 <= a ^ i) by (apply pow_le; lra). assert (a ^ i <= a ^ n) by (apply Rle_pow; assumption).
  assert (0 <= INR i * d) by (apply Rmult_le_pos; lra). assert (INR i * d <= INR n * d) by (apply Rmult_le_compat_r; lra).
  split; [apply Rmult_le_pos; lra|]. eapply Rle_trans; [|exact Hrho]. apply Rmult_le_compat; lra.
Qed.

Lemma driver_returns init g0 : is_col init m g0 -> exists tv xv, fixed_solve h step t0 t1 init = Ret (tv, xv).
Proof.
  intros Hi. unfold fixed_solve. rewrite fltb_val by assumption. rewrite Rlt_bool_false by exact Ht. cbv zeta.
  match goal with |- context [for_loop 0 ?k ?b ?s] => destruct (for_loop_ind (fun _ (st : list f64 * list (vector f64) * f64 * vector f64) => exists g, is_col (snd st) m g) b 0 k s) as (st & -> & _) end.
  - lia.
  - cbn. eauto.
  - intros i [[[tv xv] tn] xn] _ (g & Hg). cbn [snd] in Hg. destruct (Htotal tn xn (tmin h (sub t1 tn)) g Hg) as (x' & g' & -> & Hg'). cbn [bind]. eexists. split; [reflexivity|]. cbn. eauto.
  - destruct st as [[[tv xv] tn] xn]. exists tv, xv. reflexivity.
Qed.

Lemma driver init g0 : is_col init m g0 -> (forall l, (l < m)%nat -> fvalid (g0 l) /\ ffin (g0 l) = true) ->
  within m (fun l => fval (g0 l) - y l (fval t0)) delta ->
  exists N tv xv, (N <= n)%nat /\ fixed_solve h step t0 t1 init = Ret (tv, xv) /\ length tv = S N /\ length xv = S N /\
    forall i, (i <= N)%nat -> fvalid (nth i tv zero) /\ ffin (nth i tv zero) = true /\
      exists g, is_col (nth i xv (mkMatrix 0 0 [])) m g /\ (forall l, (l < m)%nat -> fvalid (g l) /\ ffin (g l) = true) /\
        within m (fun l => fval (g l) - y l (fval (nth i tv zero))) (a ^ i * (delta + INR i * d)).
Proof.
  intros Hi Hv H0. destruct (driver_returns init g0 Hi) as (tv & xv & E).
  destruct (fixed_solve_f64 h t0 t1 M Vh V0 V1 Fh F0 F1 Hh Ht M0 M1 MB HQ step init tv xv E) as (N & HN & _ & L1 & L2 & T0 & X0 & HT & HS).
  pose proof (count_n N HN) as HNn. exists N, tv, xv. split; [exact HNn|]. split; [exact E|]. split; [exact L1|]. split; [exact L2|].
  induction i as [|i IH]; intros Hi1.
  - rewrite T0, X0. split; [exact V0|]. split; [exact F0|]. exists g0. split; [exact Hi|]. split; [exact Hv|]. cbn [pow INR]. intros l Hl. specialize (H0 l Hl). cbv beta in *. lra.
  - destruct (IH ltac:(lia)) as (Vt & Ft & g & Hg & Hgv & Hge). pose proof (time_facts i ltac:(lia)) as TF. cbv zeta in TF.
    rewrite <- (HT i) in TF by lia. destruct TF as (_ & _ & Bt & Vs & Fs & Bs & _ & Ba & Bw & Bd).
    assert (Et : nth (S i) tv zero = add (nth i tv zero) (tmin h (sub t1 (nth i tv zero)))).
    { rewrite (HT (S i)) by lia. rewrite (HT i) by lia. reflexivity. }
    destruct (Hstep _ _ _ g (a ^ i * (delta + INR i * d)) Vt Ft Bt Vs Fs Bs Ba Bw Bd Hg Hgv (pow_mono i ltac:(lia)) Hge _ (HS i ltac:(lia))) as (g' & Hg' & Hgv' & Hge').
    destruct (fgrid_err h t0 t1 M Vh V0 V1 Fh F0 F1 Hh Ht M0 M1 MB (S i)) as (Va & Fa & _).
    { eapply Rle_trans; [|exact Hn48]. apply le_INR. lia. }
    rewrite <- (HT (S i)) in Va, Fa by lia. split; [exact Va|]. split; [exact Fa|]. exists g'. split; [exact Hg'|]. split; [exact Hgv'|]. rewrite Et.
    intros l Hl. eapply Rle_trans; [apply (Hge' l Hl)|]. apply pow_step.
Qed.
End Driver.

(** ** Taylor's formula with a step of either sign *)
Lemma taylor2 (y y1 y2 : R -> R) lo hi M2 t s : (forall r, lo <= r <= hi -> is_derive y r (y1 r)) -> (forall r, lo <= r <= hi -> is_derive y1 r (y2 r)) ->
  (forall r, lo <= r <= hi -> Rabs (y2 r) <= M2) -> lo <= t <= hi -> lo <= t + s <= hi ->
  Rabs (y (t + s) - y t - s * y1 t) <= M2 / 2 * s ^ 2.
Proof.
  intros D1 D2 B Ht Hs.
  assert (IN : forall r, Rmin t (t + s) <= r <= Rmax t (t + s) -> lo <= r <= hi).
  { intros r [A1 A2]. split; [eapply Rle_trans; [|exact A1]; apply Rmin_glb; lra|eapply Rle_trans; [exact A2|]; apply Rmax_lub; lra]. }
  assert (L1 : forall r, Rmin t (t + s) <= r <= Rmax t (t + s) -> Rabs (y1 r - y1 t) <= M2 * Rabs (r - t)).
  { intros r Hr. assert (IR : forall q, Rmin t r <= q <= Rmax t r -> lo <= q <= hi).
    { pose proof (IN r Hr). intros q [A1 A2]. split; [eapply Rle_trans; [|exact A1]; apply Rmin_glb; lra|eapply Rle_trans; [exact A2|]; apply Rmax_lub; lra]. }
    destruct (MVT_gen y1 t r y2) as (c & Hc & E).
    - intros q Hq. apply D2, IR. lra.
    - intros q Hq. apply continuity_pt_filterlim, (@ex_derive_continuous R_AbsRing R_NormedModule). eexists. apply D2, IR, Hq.
    - rewrite E, Rabs_mult. apply Rmult_le_compat_r; [apply Rabs_pos|]. apply B, IR, Hc. }
  assert (G : forall sg, Rabs sg = 1 -> sg * (y (t + s) - y t - s * y1 t) <= M2 / 2 * s ^ 2).
  { intros sg Hsg.
    assert (M20 : 0 <= M2) by (eapply Rle_trans; [apply Rabs_pos|apply (B t Ht)]).
    destruct (MVT_gen (fun r => sg * (y r - y t - (r - t) * y1 t) - M2 / 2 * (r - t) ^ 2) t (t + s) (fun r => sg * (y1 r - y1 t) - M2 * (r - t))) as (c & Hc & E).
    - intros r Hr. assert (Ir : lo <= r <= hi) by (apply IN; lra). pose proof (D1 r Ir) as Dr. auto_derive; [repeat split; eexists; exact Dr|].
      rewrite (is_derive_unique (fun x : R => y x) r (y1 r) Dr). field.
    - intros r Hr. pose proof (D1 r (IN r Hr)) as Dr. apply continuity_pt_filterlim.
      apply (@ex_derive_continuous R_AbsRing R_NormedModule (fun r => sg * (y r - y t - (r - t) * y1 t) - M2 / 2 * (r - t) ^ 2) r).
      auto_derive. repeat split; eexists; exact Dr.
    - cbv beta in E. pose proof (L1 c Hc) as Lc. assert (Q : Rabs (sg * (y1 c - y1 t)) <= M2 * Rabs (c - t)) by (rewrite Rabs_mult, Hsg; lra).
      apply Rabs_le_inv in Q. replace (t + s - t) with s in E by ring. replace (t - t) with 0 in E by ring.
      assert (Z : (sg * (y1 c - y1 t) - M2 * (c - t)) * s <= 0).
      { destruct (Rle_lt_dec 0 s) as [P|P].
        - rewrite Rmin_left, Rmax_right in Hc by lra. rewrite Rabs_pos_eq in Q by lra. nra.
        - rewrite Rmin_right, Rmax_left in Hc by lra. rewrite Rabs_left1 in Q by lra. nra. }
      cbn [pow] in *. lra. }
  apply Rabs_le. pose proof (G 1 Rabs_R1). pose proof (G (-1) ltac:(rewrite Rabs_left; lra)). lra.
Qed.

(** ** One explicit Euler step *)
Section Euler.
Variables (f : f64 -> vector f64 -> outcome (vector f64)) (m : nat) (F : R -> (nat -> R) -> nat -> R) (lo hi rho L eps M2 X K w M : R).
Variables (y y1 y2 : nat -> R -> R).
Hypothesis Hf : evaluates f m F lo hi y rho eps.
Hypothesis Htot : rhs_total f m.
Hypothesis HD1 : forall l t, (l < m)%nat -> lo <= t <= hi -> is_derive (y l) t (y1 l t).
Hypothesis HD2 : forall l t, (l < m)%nat -> lo <= t <= hi -> is_derive (y1 l) t (y2 l t).
Hypothesis HM2 : forall l t, (l < m)%nat -> lo <= t <= hi -> Rabs (y2 l t) <= M2.
Hypothesis HF : forall l t, (l < m)%nat -> lo <= t <= hi -> y1 l t = F t (fun j => y j t) l.
Hypothesis HL : lipschitz_near m F lo hi y rho L.
Hypothesis L0 : 0 <= L.
Hypothesis HX : forall l t, (l < m)%nat -> lo <= t <= hi -> Rabs (y l t) + rho <= X.
Hypothesis HK : forall l t, (l < m)%nat -> lo <= t <= hi -> Rabs (y1 l t) + L * rho + eps <= K.
Hypothesis KB : K <= bpow radix2 1000.
Hypothesis XB : X + 3 * K * w <= bpow radix2 1000.
Hypothesis w0 : 0 <= w. Hypothesis e0 : 0 <= eps.

Lemma euler_total t x s g : is_col x m g -> exists x' g', do_step explicit_euler f t x s = Ret x' /\ is_col x' m g'.
Proof.
  intros Hg. destruct (do_step_spec explicit_euler f m t x g s) as (r & Kk & E & _ & Hr); eauto; cbn; lia || (split; cbn; lia).
Qed.

Lemma euler_step (t s : f64) x g e : fvalid t -> ffin t = true -> lo <= fval t <= hi -> fvalid s -> ffin s = true -> Rabs (fval s) <= w ->
  lo <= fval (add t s) <= hi -> Rabs (fval (add t s) - fval t) <= w -> Rabs (fval s - (fval (add t s) - fval t)) <= 2 * uro * M ->
  is_col x m g -> (forall l, (l < m)%nat -> fvalid (g l) /\ ffin (g l) = true) -> 0 <= e <= rho ->
  within m (fun l => fval (g l) - y l (fval t)) e ->
  forall x', do_step explicit_euler f t x s = Ret x' -> exists g', is_col x' m g' /\ (forall l, (l < m)%nat -> fvalid (g' l) /\ ffin (g' l) = true) /\
    within m (fun l => fval (g' l) - y l (fval (add t s)))
      ((1 + L * w) * e + (M2 / 2 * w ^ 2 + w * eps + uro * (2 * M * K + X + 3 * K * w) + 2 * eta64)).
Proof.
  intros Vt Ft Bt Vs Fs Bs Ba Bw Bd Hg Hgv He Hge x' E.
  assert (Hrho : within m (fun l => fval (g l) - y l (fval t)) rho) by (intros l Hl; eapply Rle_trans; [apply (Hge l Hl)|lra]).
  destruct (Hf t x g Vt Ft Bt (conj Hg Hgv) Hrho) as (v & k & Ev & (Hk & Hkv) & Hke).
  assert (Hs : exists r, do_step explicit_euler f t x s = Ret r /\ is_col r m (fun i => add (g i) (mul (add zero (mul (k i) one)) s))).
  { unfold do_step, stages, explicit_euler. cbn [ta tb tc length]. rewrite Ev. cbn [bind]. rewrite for_loop_nil by lia. cbn [bind]. unfold wsum. cbn [combine fold_left fst snd bind].
    assert (Rx : rows x = m) by (destruct Hg as (Q & _); unfold dim in Q; injection Q; auto). rewrite Rx.
    destruct (vadd_col _ _ m _ _ (vzero_spec m) (vmul_scalar_col v m k one Hk)) as (u & -> & Hu). cbn [bind].
    destruct (vadd_col _ _ m _ _ Hg (vmul_scalar_col u m _ s Hu)) as (r & -> & Hr). eauto. }
  destruct Hs as (r & E' & Hr). rewrite E' in E. injection E as <-. exists (fun i => add (g i) (mul (add zero (mul (k i) one)) s)). split; [exact Hr|].
  pose proof uro_pos as U0. assert (U1 : uro <= / 1000) by (rewrite uro_val; lra). pose proof eta64_pos as T0.
  assert (T1 : eta64 <= 1) by (unfold eta64; change 1 with (bpow radix2 0); apply bpow_le; lia).
  assert (MP : 0 <= M) by (pose proof (Rabs_pos (fval s - (fval (add t s) - fval t))); nra).
  assert (BB : bpow radix2 1000 + 1 <= bpow radix2 1023).
  { change (bpow radix2 1023) with (bpow radix2 (1000 + 23)). rewrite bpow_plus. pose proof (bpow_gt_0 radix2 1000). assert (1 <= bpow radix2 1000) by (change 1 with (bpow radix2 0); apply bpow_le; lia).
    assert (2 <= bpow radix2 23) by (change 2 with (bpow radix2 1); apply bpow_le; lia). nra. }
  assert (A : forall l, (l < m)%nat -> let q := add (g l) (mul (add zero (mul (k l) one)) s) in
     fvalid q /\ ffin q = true /\ Rabs (fval q - y l (fval (add t s))) <=
       (1 + L * w) * e + (M2 / 2 * w ^ 2 + w * eps + uro * (2 * M * K + X + 3 * K * w) + 2 * eta64)).
  { intros l Hl. cbv zeta. destruct (Hgv l Hl) as (Vg & Fg). destruct (Hkv l Hl) as (Vk & Fk).
    pose proof (Hke l Hl) as Ek. cbv beta in Ek.
    assert (Hy : within m (fun j => y j (fval t) - y j (fval t)) rho) by (intros j _; rewrite Rminus_eq_0, Rabs_R0; lra).
    pose proof (HL (fval t) (fun j => fval (g j)) (fun j => y j (fval t)) e Bt Hrho Hy Hge l Hl) as Lk. cbv beta in Lk. rewrite <- HF in Lk by assumption.
    assert (D : Rabs (fval (k l) - y1 l (fval t)) <= L * e + eps).
    { replace (fval (k l) - y1 l (fval t)) with ((fval (k l) - F (fval t) (fun j => fval (g j)) l) + (F (fval t) (fun j => fval (g j)) l - y1 l (fval t))) by ring.
      eapply Rle_trans; [apply Rabs_triang|]. lra. }
    assert (Le : L * e <= L * rho) by (apply Rmult_le_compat_l; lra). pose proof (HK l _ Hl Bt) as Kl. pose proof (HX l _ Hl Bt) as Xl.
    assert (Y1 : Rabs (y1 l (fval t)) <= K) by (assert (0 <= L * e) by (apply Rmult_le_pos; lra); lra).
    assert (K0 : 0 <= K) by (pose proof (Rabs_pos (y1 l (fval t))); lra).
    assert (Bk : Rabs (fval (k l)) <= K).
    { replace (fval (k l)) with ((fval (k l) - y1 l (fval t)) + y1 l (fval t)) by ring. eapply Rle_trans; [apply Rabs_triang|]. lra. }
    assert (Bg : Rabs (fval (g l)) <= X).
    { replace (fval (g l)) with ((fval (g l) - y l (fval t)) + y l (fval t)) by ring. eapply Rle_trans; [apply Rabs_triang|]. pose proof (Hrho l Hl) as Q. cbv beta in Q. lra. }
    assert (X0 : 0 <= X) by (pose proof (Rabs_pos (fval (g l))); lra).
    assert (V1' : fvalid (one : f64)) by reflexivity. assert (F1' : ffin (one : f64) = true) by reflexivity.
    destruct (fmul_round (k l) one Vk V1' Fk F1') as (E1 & Fm).
    { rewrite fval_one, Rmult_1_r. apply no_ov. lra. }
    rewrite fval_one, Rmult_1_r, rnd_fval in E1 by exact Vk. assert (Vm : fvalid (mul (k l) one)) by (apply fvalid_mul; assumption).
    assert (Fz : ffin (zero : f64) = true) by reflexivity. assert (Vz : fvalid (zero : f64)) by reflexivity. assert (Zv : fval (zero : f64) = 0) by reflexivity.
    destruct (fadd_round zero (mul (k l) one) Vz Vm Fz Fm) as (E2 & Fa).
    { rewrite Zv, Rplus_0_l, E1. apply no_ov. lra. }
    rewrite Zv, Rplus_0_l, rnd_fval, E1 in E2 by exact Vm. assert (Va : fvalid (add zero (mul (k l) one))) by (apply fvalid_add; assumption).
    set (p := add zero (mul (k l) one)) in *.
    assert (KS : Rabs (fval (k l) * fval s) <= K * w) by (rewrite Rabs_mult; apply Rmult_le_compat; try apply Rabs_pos; assumption).
    assert (KW : 0 <= K * w) by (apply Rmult_le_pos; lra).
    destruct (fmul_ok p s Va Vs Fa Fs) as (Vp & Fp & Ep). { rewrite E2. lra. } rewrite E2 in Ep.
    assert (Ep' : Rabs (fval (mul p s) - fval (k l) * fval s) <= uro * (K * w) + eta64) by (eapply Rle_trans; [exact Ep|]; apply Rplus_le_compat_r, Rmult_le_compat_l; lra).
    assert (UK : uro * (K * w) <= K * w) by nra.
    assert (Sb : Rabs (fval (g l) + fval (mul p s)) <= X + 2 * (K * w) + eta64).
    { replace (fval (g l) + fval (mul p s)) with (fval (g l) + (fval (k l) * fval s) + (fval (mul p s) - fval (k l) * fval s)) by ring.
      eapply Rle_trans; [apply Rabs_triang|]. apply Rle_trans with (X + K * w + (uro * (K * w) + eta64)); [|lra]. apply Rplus_le_compat; [|exact Ep'].
      eapply Rle_trans; [apply Rabs_triang|]. lra. }
    destruct (fadd_ok (g l) (mul p s) Vg Vp Fg Fp ltac:(lra)) as (Vq & Fq & Eq). split; [exact Vq|]. split; [exact Fq|].
    assert (Eq' : Rabs (fval (add (g l) (mul p s)) - (fval (g l) + fval (mul p s))) <= uro * (X + 2 * (K * w) + eta64)) by (eapply Rle_trans; [exact Eq|]; apply Rmult_le_compat_l; lra).
    set (sg := fval (add t s) - fval t) in *. assert (Ets : fval (add t s) = fval t + sg) by (unfold sg; ring).
    pose proof (taylor2 (y l) (y1 l) (y2 l) lo hi M2 (fval t) sg (fun r => HD1 l r Hl) (fun r => HD2 l r Hl) (fun r => HM2 l r Hl) Bt ltac:(rewrite <- Ets; exact Ba)) as Ty.
    rewrite Ets in *. assert (M20 : 0 <= M2) by (eapply Rle_trans; [apply Rabs_pos|apply (HM2 l _ Hl Bt)]).
    assert (Sq : sg ^ 2 <= w ^ 2). { rewrite <- (pow2_abs sg). apply pow_incr. split; [apply Rabs_pos|exact Bw]. }
    assert (Ty' : Rabs (y l (fval t + sg) - y l (fval t) - sg * y1 l (fval t)) <= M2 / 2 * w ^ 2).
    { eapply Rle_trans; [exact Ty|]. apply Rmult_le_compat_l; lra. }
    assert (P1 : Rabs ((fval (k l) - y1 l (fval t)) * fval s) <= (L * e + eps) * w) by (rewrite Rabs_mult; apply Rmult_le_compat; try apply Rabs_pos; assumption).
    assert (P2 : Rabs (y1 l (fval t) * (fval s - sg)) <= K * (2 * uro * M)) by (rewrite Rabs_mult; apply Rmult_le_compat; try apply Rabs_pos; assumption).
    pose proof (Hge l Hl) as P3. cbv beta in P3.
    apply Rabs_le_inv in Ep'. apply Rabs_le_inv in Eq'. apply Rabs_le_inv in Ty'. apply Rabs_le_inv in P1. apply Rabs_le_inv in P2. apply Rabs_le_inv in P3.
    assert (UE : uro * eta64 <= eta64) by nra.
    assert (EQ : fval (add (g l) (mul p s)) - y l (fval t + sg) =
       (fval (add (g l) (mul p s)) - (fval (g l) + fval (mul p s))) + (fval (mul p s) - fval (k l) * fval s) + (fval (g l) - y l (fval t))
       + (fval (k l) - y1 l (fval t)) * fval s + y1 l (fval t) * (fval s - sg) - (y l (fval t + sg) - y l (fval t) - sg * y1 l (fval t))) by ring.
    apply Rabs_le. rewrite EQ. lra. }
  split; intros l Hl; destruct (A l Hl) as (A1 & A2 & A3); [split; assumption|exact A3].
Qed.
End Euler.

(** ** The explicit Euler solver *)
Lemma one_plus_pow_le_exp x n : 0 <= x -> (1 + x) ^ n <= exp (INR n * x).
Proof.
  intros Hx. induction n as [|n IH]; [cbn [pow INR]; rewrite Rmult_0_l, exp_0; lra|].
  rewrite S_INR, Rmult_plus_distr_r, Rmult_1_l, exp_plus. cbn [pow]. rewrite (Rmult_comm (exp _)).
  apply Rmult_le_compat; [lra|apply pow_le; lra|apply exp_ineq1_le|exact IH].
Qed.

Lemma euler_f64 h t0 t1 M n f m F Y rho L eps M2 X K delta init g0 :
  fvalid h -> fvalid t0 -> fvalid t1 -> ffin h = true -> ffin t0 = true -> ffin t1 = true ->
  0 < fval h -> fval t0 <= fval t1 -> Rabs (fval t0) <= M -> Rabs (fval t1) <= M -> M <= bpow radix2 1000 ->
  (fval t1 - fval t0) / fval h + 2 <= INR n -> INR n <= IZR (2 ^ 47) ->
  (0 < m)%nat ->
  let w := fval h + 4 * (INR n + 1) * uro * M in
  let lo := fval t0 - 4 * INR n * uro * M in let hi := fval t1 + 4 * INR n * uro * M in
  let d := M2 / 2 * w ^ 2 + w * eps + uro * (2 * M * K + X + 3 * K * w) + 2 * eta64 in
  smooth_solution m F lo hi 2 Y -> lipschitz_near m F lo hi (Y 0%nat) rho L -> 0 <= L -> 0 <= rho -> 0 <= eps -> 0 <= delta ->
  (forall l t, (l < m)%nat -> lo <= t <= hi ->
     Rabs (Y 2%nat l t) <= M2 /\ Rabs (Y 1%nat l t) + L * rho + eps <= K /\ Rabs (Y 0%nat l t) + rho <= X) ->
  K <= bpow radix2 1000 -> X + 3 * K * w <= bpow radix2 1000 ->
  rhs_total f m -> evaluates f m F lo hi (Y 0%nat) rho eps ->
  fcol init m g0 -> within m (fun l => fval (g0 l) - Y 0%nat l (fval t0)) delta ->
  exp (INR n * (L * w)) * (delta + INR n * d) <= rho ->
  exists N tv xv, (N <= n)%nat /\ fixed_solve h (do_step explicit_euler f) t0 t1 init = Ret (tv, xv) /\ length tv = S N /\ length xv = S N /\
    forall i, (i <= N)%nat -> exists g, fcol (nth i xv (mkMatrix 0 0 [])) m g /\
      within m (fun l => fval (g l) - Y 0%nat l (fval (nth i tv zero))) (exp (INR i * (L * w)) * (delta + INR i * d)).
Proof.
  intros Vh V0 V1 Fh F0 F1 Hh Ht M0 M1 MB Hn Hn48 Hm w lo hi d (HF & HD & _) HL L0 R0 E0 D0 HB KB XB Htot Hf (Hi & Hiv) Hd Hrho.
  assert (MP : 0 <= M) by (pose proof (Rabs_pos (fval t0)); lra). pose proof uro_pos as U0. pose proof (pos_INR n) as Pn. pose proof eta64_pos as T0.
  assert (Pt : 0 <= 4 * INR n * uro * M) by (repeat apply Rmult_le_pos; lra).
  assert (W0 : 0 <= w) by (unfold w; assert (0 <= 4 * (INR n + 1) * uro * M) by (repeat apply Rmult_le_pos; lra); lra).
  assert (Bt0 : lo <= fval t0 <= hi) by (unfold lo, hi; lra).
  destruct (HB 0%nat _ Hm Bt0) as (B2 & B1 & B0).
  assert (M20 : 0 <= M2) by (eapply Rle_trans; [apply Rabs_pos|exact B2]).
  assert (K0 : 0 <= K) by (pose proof (Rabs_pos (Y 1%nat 0%nat (fval t0))); assert (0 <= L * rho) by (apply Rmult_le_pos; lra); lra).
  assert (X0 : 0 <= X) by (pose proof (Rabs_pos (Y 0%nat 0%nat (fval t0))); lra).
  assert (KW : 0 <= K * w) by (apply Rmult_le_pos; lra). assert (LW : 0 <= L * w) by (apply Rmult_le_pos; lra).
  assert (Pd : 0 <= d).
  { unfold d. assert (0 <= M2 / 2 * w ^ 2) by (apply Rmult_le_pos; [lra|apply pow2_ge_0]). assert (0 <= w * eps) by (apply Rmult_le_pos; lra).
    assert (0 <= 2 * M * K) by (repeat apply Rmult_le_pos; lra).
    assert (0 <= uro * (2 * M * K + X + 3 * K * w)) by (apply Rmult_le_pos; lra). lra. }
  change (IZR (2 ^ 47)) with 140737488355328 in Hn48.
  destruct (driver h t0 t1 M Vh V0 V1 Fh F0 F1 Hh Ht M0 M1 MB ltac:(change (IZR (2 ^ 47)) with 140737488355328; lra) n Hn ltac:(change (IZR (2 ^ 48)) with 281474976710656; lra)
    m (Y 0%nat) (1 + L * w) d delta rho (do_step explicit_euler f)) with (init := init) (g0 := g0) as (N & tv & xv & HN & E & L1 & L2 & H); try assumption; try lra.
  - eapply Rle_trans; [|exact Hrho]. apply Rmult_le_compat_r; [assert (0 <= INR n * d) by (apply Rmult_le_pos; lra); lra|]. apply one_plus_pow_le_exp. exact LW.
  - intros t s x g e Vt Ft Bt Vs Fs Bs Ba Bw Bd Hg Hgv He Hge x' E.
    apply (euler_step f m F lo hi rho L eps M2 X K w M (Y 0%nat) (Y 1%nat) (Y 2%nat)) with (x := x) (g := g); try assumption;
      (intros l r Hl Hr; first [apply (HD 0%nat l r); [lia|assumption..] | apply (HD 1%nat l r); [lia|assumption..] | apply (HB l r Hl Hr) | apply (HF l r Hl Hr)]).
  - intros t x s g Hg. apply (euler_total f m Htot t x s g Hg).
  - exists N, tv, xv. split; [exact HN|]. split; [exact E|]. split; [exact L1|]. split; [exact L2|]. intros i Hi'.
    destruct (H i Hi') as (_ & _ & g & Hg & Hgv & He). exists g. split; [split; assumption|]. intros l Hl. eapply Rle_trans; [apply (He l Hl)|].
    apply Rmult_le_compat_r; [|apply one_plus_pow_le_exp; exact LW]. pose proof (pos_INR i). assert (0 <= INR i * d) by (apply Rmult_le_pos; lra). lra.
Qed.
