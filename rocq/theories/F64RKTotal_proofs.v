(** Total error of the fixed-step Runge-Kutta solvers in binary64: truncation and rounding together. *)
From Coq Require Import ZArith SpecFloat Reals Lra Lia Arith List Bool.
From Flocq Require Import Core.
From Coquelicot Require Import Coquelicot.
From Verif Require Import Outcome Scalar RealOps Matrix_model Vector_model Matrix_spec Ode_model Ode_spec OdeConv_spec Optim_spec Ode_proofs OdeConv_proofs OdeOrder_proofs OdeGlobal_proofs
  F64_spec F64Flocq F64Err_proofs F64Grid_proofs F64Ode_spec F64Euler_proofs F64EulerEx_proofs F64RK_proofs F64RKTab_proofs F64RKEx_proofs.
Import ListNotations.
Local Open Scope R_scope.

Lemma rk_total_f64 h t0 t1 M n B64 B A f fR m F lo hi X YB K L Lt eps d rho delta y init g0 :
  fvalid h -> fvalid t0 -> fvalid t1 -> ffin h = true -> ffin t0 = true -> ffin t1 = true ->
  0 < fval h -> fval t0 <= fval t1 -> Rabs (fval t0) <= M -> Rabs (fval t1) <= M -> M <= bpow radix2 1000 ->
  (fval t1 - fval t0) / fval h + 2 <= INR n -> INR n <= IZR (2 ^ 47) ->
  rounded_tableau B64 B A ->
  let w := fval h + 4 * (INR n + 1) * uro * M in
  let xi := uro * (X + 39 * w * (A * (K + eps))) + (33 * w + 2) * eta64 in
  let theta := uro * (9 / 8 * M + 4 * w) + 2 * eta64 in
  let ups := 2 * uro * M in
  let r := xi + A * K * ups + 2 * w * A * (eps + Lt * (theta + ups) + L * (xi + A * K * ups)) in
  let q := 2 * L * A * w in
  lo + 2 * w + theta <= fval t0 -> fval t1 + 2 * w + theta <= hi ->
  rhs_total f m -> box_evaluates f m F lo hi X eps -> (forall t, computes (fR t) m m (F t)) -> box_regular m F lo hi X K L Lt ->
  local_error B fR m y lo hi w d -> (forall l t, (l < m)%nat -> lo <= t <= hi -> Rabs (y l t) <= YB) ->
  0 <= L -> 0 <= Lt -> 0 <= eps -> 0 <= K -> 0 <= d -> 0 <= delta -> 0 <= YB ->
  L * w * A <= / 2 -> A * (K + eps) <= bpow radix2 990 -> X <= bpow radix2 1000 -> 9 / 8 * M + w <= bpow radix2 1000 ->
  fcol init m g0 -> within m (fun l => fval (g0 l) - y l (fval t0)) delta -> 0 <= X ->
  exp (INR n * q) * (delta + INR n * (r + d)) <= rho -> YB + rho + w * (A * (K + eps)) + xi <= X ->
  exists N tv xv, (N <= n)%nat /\ fixed_solve h (do_step B64 f) t0 t1 init = Ret (tv, xv) /\ length tv = S N /\ length xv = S N /\
    forall i, (i <= N)%nat -> exists g, fcol (nth i xv (mkMatrix 0 0 [])) m g /\
      within m (fun l => fval (g l) - y l (fval (nth i tv zero))) (exp (INR i * q) * (delta + INR i * (r + d))).
Proof.
  intros Vh V0 V1 Fh F0 F1 Hh Ht M0 M1 MB Hn Hn47 HB w xi theta ups r q Hlo Hhi Htot Hf HfR HF HLoc HY L0 Lt0 E0 K0 D0 De0 Y0 Hq KB XB TB Hi Hdelta XP Hrho HX.
  destruct (rk_signs h t0 M n B64 B A X K L Lt eps Hh M0 HB L0 Lt0 E0 K0 XP) as (MP & A0 & W0 & th0 & u0 & x0 & r0 & q0).
  fold w in W0, th0, x0, r0, q0. fold theta in th0, r0. fold ups in u0, r0. fold xi in x0, r0. fold r in r0. fold q in q0.
  pose proof small_consts as ((U0 & U1) & (T0 & T1)). pose proof (pos_INR n) as Pn.
  assert (AK : 0 <= A * (K + eps)) by (apply Rmult_le_pos; lra). assert (wAK : 0 <= w * (A * (K + eps))) by (apply Rmult_le_pos; lra).
  assert (HQ : (fval t1 - fval t0) / fval h <= IZR (2 ^ 47)) by lra.
  assert (Hn48 : INR n <= IZR (2 ^ 48)) by (eapply Rle_trans; [exact Hn47|apply IZR_le; lia]).
  pose proof HB as (Hlen & Hs & Hok64 & HokR & _).
  assert (UM4 : 4 * INR n * uro * M <= w) by (unfold w; assert (0 <= uro * M) by (apply Rmult_le_pos; lra); replace (4 * (INR n + 1) * uro * M) with (4 * INR n * uro * M + 4 * (uro * M)) by ring; lra).
  assert (Mt9 : 4 * INR n * uro * M <= / 8 * M).
  { apply Rmult_le_compat_r; [exact MP|]. rewrite uro_val. change (IZR (2 ^ 47)) with 140737488355328 in Hn47. lra. }
  assert (Pw : forall i, 0 <= delta + INR i * (r + d)) by (intros i; pose proof (pos_INR i); assert (0 <= INR i * (r + d)) by (apply Rmult_le_pos; lra); lra).
  destruct (driver h t0 t1 M Vh V0 V1 Fh F0 F1 Hh Ht M0 M1 MB HQ n Hn Hn48 m y (1 + q) (r + d) delta rho (do_step B64 f)) with (init := init) (g0 := g0)
    as (N & tv & xv & HN & E & L1 & L2 & H).
  - lra.
  - lra.
  - exact De0.
  - eapply Rle_trans; [|exact Hrho]. apply Rmult_le_compat_r; [apply Pw|]. apply one_plus_pow_le_exp. exact q0.
  - fold w. intros t s x g e Vt Ft Bt Vs Fs Bs Ba Bw Bd Hg Hgv He Hge x' Ex'.
    destruct (col_exists m (fun l => y l (fval t))) as (xR & HxR).
    assert (It : lo + w + theta <= fval t <= hi - w - theta) by lra.
    assert (Bt9 : Rabs (fval t) <= 9 / 8 * M) by (apply Rabs_le; apply Rabs_le_inv in M0; apply Rabs_le_inv in M1; lra).
    assert (GRB : within m (fun l => y l (fval t)) (YB + e)) by (intros l Hl; specialize (HY l (fval t) Hl ltac:(lra)); lra).
    assert (GB : within m (fun l => fval (g l)) (YB + e)).
    { intros l Hl. specialize (HY l (fval t) Hl ltac:(lra)). specialize (Hge l Hl). cbv beta in *. apply Rabs_le_inv in HY. apply Rabs_le_inv in Hge. apply Rabs_le. lra. }
    destruct (rk_step_main B64 B A f fR m F lo hi X K L Lt eps w (9 / 8 * M) HB Htot Hf HfR HF L0 Lt0 E0 K0 W0 Hq KB XB TB ltac:(lra)
      t s (fval (add t s) - fval t) x g xR (fun l => y l (fval t)) (YB + e) e ups Vt Ft Bt9 It Vs Fs Bs Bw Bd (conj Hg Hgv) HxR GB GRB ltac:(fold xi; lra) ltac:(lra) Hge ltac:(lra))
      as (x1 & g1 & xR1 & gR1 & R1 & R2 & R3 & R4 & R5 & _).
    fold xi theta in R5. rewrite R1 in Ex'. injection Ex' as <-.
    destruct (HLoc (fval t) (fval (add t s) - fval t) xR ltac:(lra) ltac:(lra) Bw HxR) as (x2 & g2 & S1 & S2 & S3). rewrite R3 in S1. injection S1 as <-.
    exists g1. split; [apply (proj1 R2)|]. split; [apply (proj2 R2)|]. intros l Hl. specialize (R5 l Hl). specialize (S3 l Hl). cbv beta in *.
    replace (fval t + (fval (add t s) - fval t)) with (fval (add t s)) in S3 by ring.
    rewrite (rcol_unique xR1 m gR1 g2 l R4 S2 Hl) in R5.
    replace (fval (g1 l) - y l (fval (add t s))) with ((fval (g1 l) - g2 l) + (g2 l - y l (fval (add t s)))) by ring. eapply Rle_trans; [apply Rabs_triang|].
    assert (e + xi + A * K * ups + w * A * (2 * (eps + Lt * (theta + ups) + L * (xi + A * K * ups + e))) = (1 + q) * e + r) by (unfold r, q; ring). lra.
  - intros t x s g Hg. apply (rk_total B64 f m t x s g Htot ltac:(lia) Hok64 Hg).
  - apply (proj1 Hi).
  - apply (proj2 Hi).
  - exact Hdelta.
  - exists N, tv, xv. split; [exact HN|]. split; [exact E|]. split; [exact L1|]. split; [exact L2|]. intros i Hin. destruct (H i Hin) as (_ & _ & g & Hg & Hgv & Hge).
    exists g. split; [split; [exact Hg|exact Hgv]|]. intros l Hl. eapply Rle_trans; [apply (Hge l Hl)|]. apply Rmult_le_compat_r; [apply Pw|]. apply one_plus_pow_le_exp. exact q0.
Qed.

(** ** x' = -x with RungeKutta4 *)
Lemma exp_taylor5 z : Rabs z <= / 1000 -> Rabs (exp z - (1 + z + z ^ 2 / 2 + z ^ 3 / 6 + z ^ 4 / 24)) <= 11 / 10 * Rabs z ^ 5.
Proof.
  intros Hz. set (sg := if Rle_dec 0 z then 1 else -1). assert (S1 : Rabs sg = 1) by (unfold sg; destruct (Rle_dec 0 z); [apply Rabs_R1|rewrite Rabs_left; lra]).
  assert (Ez : z = sg * Rabs z) by (unfold sg; destruct (Rle_dec 0 z); [rewrite Rabs_pos_eq; lra|rewrite Rabs_left; lra]).
  set (u := Rabs z) in *. assert (U0 : 0 <= u) by apply Rabs_pos.
  pose proof (taylor_bound 5 (fun k s => sg ^ k * exp (sg * s)) 0 u (11 / 10) U0) as T. cbv beta in T. rewrite Rplus_0_l in T.
  replace (exp z - (1 + z + z ^ 2 / 2 + z ^ 3 / 6 + z ^ 4 / 24)) with (sg ^ 0 * exp (sg * u) - tpoly (fun r => sg ^ r * exp (sg * 0)) 5 u).
  - apply T.
    + intros k s _ _. auto_derive; [exact I|]. cbn [pow]. ring.
    + intros s Hs. rewrite Rabs_mult, <- RPow_abs, S1, pow1, Rmult_1_l, Rabs_pos_eq by (left; apply exp_pos).
      assert (E1 : sg * s <= / 1000) by (pose proof (Rle_abs (sg * s)); rewrite Rabs_mult, S1, Rabs_pos_eq in * by lra; lra).
      pose proof (exp_ineq1_le (- / 1000)) as Q. rewrite exp_Ropp in Q. apply Rle_trans with (exp (/ 1000)); [destruct E1 as [E1|E1]; [left; apply exp_increasing, E1|rewrite E1; lra]|].
      apply Rle_trans with (/ (1 + - / 1000)); [|replace (/ (1 + - / 1000)) with (1000 / 999) by field; lra].
      rewrite <- (Rinv_inv (exp (/ 1000))). apply Rinv_le_contravar; lra.
  - rewrite Rmult_0_r, exp_0. unfold tpoly. cbn [sumn]. change (@add R R_ops) with Rplus. change (@zero R R_ops) with 0. rewrite Ez. cbn [fact]. simpl INR. field.
Qed.

Lemma decay_rk4_step t x s v : is_col x 1 (fun _ => v) ->
  exists x', do_step rungekutta4 (fun _ (x : vector R) => Ret (vneg x)) t x s = Ret x' /\ is_col x' 1 (fun _ => v * (1 - s + s ^ 2 / 2 - s ^ 3 / 6 + s ^ 4 / 24)).
Proof.
  intros Hx. assert (Tot : rhs_total (fun (_ : R) (x : vector R) => Ret (vneg x)) 1) by (intros t' x' g' Hg'; destruct (decay_computes t' x' g' Hg') as (y' & E & Hy); eauto).
  destruct (do_step_spec rungekutta4 (fun _ (x : vector R) => Ret (vneg x)) 1 t x (fun _ => v) s) as (x' & K & E & (K0 & KS) & Hr); [cbn; lia|split; cbn; lia|exact Hx|exact Tot|].
  exists x'. split; [exact E|].
  assert (KV : forall z k g, is_col z 1 g -> Ret (vneg z) = Ret k -> forall kk, is_col k 1 kk -> kk 0%nat = - g 0%nat).
  { intros z k g Hz Ek kk Hk. injection Ek as <-. destruct (decay_computes 0 z g Hz) as (y & Ey & Hy). injection Ey as <-. apply (rcol_unique _ 1 kk (decay_F 0 g) 0 Hk Hy Nat.lt_0_1). }
  assert (Q0 : K 0%nat 0%nat = - v). { destruct K0 as (k0 & E0 & H0). exact (KV x k0 _ Hx E0 _ H0). }
  assert (QS : forall j, (0 < j < 4)%nat -> K j 0%nat = - (v + sumn j (fun l => K l 0%nat * a_of (ta rungekutta4) j l) * s)).
  { intros j Hj. destruct (KS j ltac:(cbn; lia)) as (xj & kj & Hxj & Ej & Hkj). exact (KV xj kj _ Hxj Ej _ Hkj). }
  pose proof (QS 1%nat ltac:(lia)) as Q1. pose proof (QS 2%nat ltac:(lia)) as Q2. pose proof (QS 3%nat ltac:(lia)) as Q3. clear QS KS.
  cbv beta iota delta [a_of rungekutta4 ta nth Nat.mul Nat.add Nat.div Nat.sub Nat.divmod fst snd sumn] in Q1, Q2, Q3. rewrite ?lit_R in Q1, Q2, Q3.
  change (@add R R_ops) with Rplus in *; change (@mul R R_ops) with Rmult in *; change (@zero R R_ops) with 0 in *; change (@one R R_ops) with 1 in *.
  destruct Hr as (R1 & R2 & R3). split; [exact R1|]. split; [exact R2|]. intros i j Hi Hj. assert (i = 0%nat) by lia. subst i. rewrite (R3 0%nat j Nat.lt_0_1 Hj). f_equal.
  cbv beta iota delta [b_of rungekutta4 tb nth length sumn]. rewrite !lit_R.
  change (@add R R_ops) with Rplus in *; change (@mul R R_ops) with Rmult in *; change (@zero R R_ops) with 0 in *; change (@one R R_ops) with 1 in *.
  rewrite Q3, Q2, Q1, Q0, !lit_R. field.
Qed.

Lemma decay_local : local_error rungekutta4 (fun _ (x : vector R) => Ret (vneg x)) 1 (decay_Y 0) (- / 100) 2 (/ 1020) (14 / 10 ^ 16).
Proof.
  intros t s x Ht Hs Hw Hx.
  assert (Hx' : is_col x 1 (fun _ => exp (- t))). { destruct Hx as (R1 & R2 & R3). split; [exact R1|]. split; [exact R2|]. intros i j Hi Hj. rewrite (R3 i j Hi Hj). unfold decay_Y. f_equal. ring. }
  destruct (decay_rk4_step t x s (exp (- t)) Hx') as (x' & E & Hr). exists x', (fun _ => exp (- t) * (1 - s + s ^ 2 / 2 - s ^ 3 / 6 + s ^ 4 / 24)). split; [exact E|]. split; [exact Hr|].
  intros l Hl. unfold decay_Y. rewrite pow_O, Rmult_1_l. replace (- (t + s)) with (- t + - s) by ring. rewrite exp_plus.
  rewrite <- Rmult_minus_distr_l, Rabs_mult, Rabs_minus_sym, (Rabs_pos_eq (exp (- t))) by (left; apply exp_pos).
  assert (Hw' : Rabs (- s) <= / 1020) by (rewrite Rabs_Ropp; exact Hw). pose proof (exp_taylor5 (- s) ltac:(lra)) as T.
  replace (exp (- s) - (1 - s + s ^ 2 / 2 - s ^ 3 / 6 + s ^ 4 / 24)) with (exp (- s) - (1 + - s + (- s) ^ 2 / 2 + (- s) ^ 3 / 6 + (- s) ^ 4 / 24)) by field.
  assert (P5 : Rabs (- s) ^ 5 <= (/ 1020) ^ 5) by (apply pow_incr; split; [apply Rabs_pos|exact Hw']).
  assert (E1 : exp (- t) <= 100 / 99).
  { pose proof (exp_ineq1_le (- / 100)) as Q. rewrite exp_Ropp in Q. apply Rle_trans with (exp (/ 100)).
    - destruct (Req_dec (- t) (/ 100)) as [->|]; [lra|]. left. apply exp_increasing. lra.
    - rewrite <- (Rinv_inv (exp (/ 100))). replace (100 / 99) with (/ (1 + - / 100)) by field. apply Rinv_le_contravar; lra. }
  pose proof (exp_pos (- t)). apply Rle_trans with (100 / 99 * (11 / 10 * (/ 1020) ^ 5)); [apply Rmult_le_compat; [lra|apply Rabs_pos|exact E1|lra]|lra].
Qed.

Lemma exp_INR n : exp (INR n * 1) = exp 1 ^ n.
Proof. induction n as [|n IH]; [cbn [INR pow]; rewrite Rmult_0_l; apply exp_0|]. rewrite S_INR, Rmult_plus_distr_r, exp_plus, IH, Rmult_1_l. cbn [pow]. ring. Qed.

Lemma decay_rk4_total : exists N tv xv, (N <= 1026)%nat /\
  fixed_solve (decay_h : f64) (do_step rungekutta4 (fun _ x => Ret (vneg x))) zero one decay_init = Ret (tv, xv) /\
  length tv = S N /\ length xv = S N /\
  forall i, (i <= N)%nat -> exists g, fcol (nth i xv (mkMatrix 0 0 [])) 1 g /\
    Rabs (fval (g 0%nat) - exp (- fval (nth i tv zero))) <= / 10 ^ 8.
Proof.
  assert (B10 : 4096 <= bpow radix2 990) by (change 4096 with (bpow radix2 12); apply bpow_le; lia).
  assert (B11 : 4096 <= bpow radix2 1000) by (change 4096 with (bpow radix2 12); apply bpow_le; lia).
  assert (Z0 : fval (zero : f64) = 0) by reflexivity. pose proof fval_one as Z1. pose proof decay_h_val as Zh. pose proof eta64_pos as T0.
  assert (T1 : eta64 <= bpow radix2 (-80)) by (unfold eta64; apply bpow_le; lia).
  change (bpow radix2 (-80)) with (/ 1208925819614629174706176) in T1.
  set (w := fval decay_h + 4 * (INR 1026 + 1) * uro * 1).
  set (xi := uro * (2 + 39 * w * (3 * (2 + 0))) + (33 * w + 2) * eta64).
  set (theta := uro * (9 / 8 * 1 + 4 * w) + 2 * eta64).
  set (ups := 2 * uro * 1).
  set (r := xi + 3 * 2 * ups + 2 * w * 3 * (0 + 0 * (theta + ups) + 1 * (xi + 3 * 2 * ups))).
  set (q := 2 * 1 * 3 * w). set (d := 14 / 10 ^ 16).
  assert (W : / 1024 <= w <= / 1023) by (unfold w; rewrite Zh, INR_1026, uro_val; lra).
  assert (WT : 0 <= w * eta64 <= / 1208925819614629174706176) by nra.
  assert (Bxi : 0 <= xi <= 3 / 10 ^ 16) by (unfold xi; rewrite uro_val; lra).
  assert (Bups : 0 <= ups <= 24 / 10 ^ 17) by (unfold ups; rewrite uro_val; lra).
  assert (Bth : 0 <= theta <= / 1000) by (unfold theta; rewrite uro_val; lra).
  assert (Br : 0 <= r <= 2 / 10 ^ 15).
  { unfold r. set (z := xi + 3 * 2 * ups). assert (0 <= z <= 18 / 10 ^ 16) by (unfold z; lra). assert (0 <= w * z <= / 1023 * (18 / 10 ^ 16)) by (split; [apply Rmult_le_pos; lra|apply Rmult_le_compat; lra]).
    replace (z + 2 * w * 3 * (0 + 0 * (theta + ups) + 1 * z)) with (z + 6 * (w * z)) by ring. lra. }
  assert (Ex : forall k, (k <= 1026)%nat -> 0 <= exp (INR k * q) * (0 + INR k * (r + d)) <= / 10 ^ 8).
  { intros k Hk. apply le_INR in Hk. rewrite INR_1026 in Hk. pose proof (pos_INR k).
    assert (E1 : INR k * q <= INR 7 * 1) by (unfold q; simpl INR; apply Rle_trans with (1026 * (2 * 1 * 3 * / 1023)); [apply Rmult_le_compat; lra|lra]).
    assert (E2 : exp (INR k * q) <= 3 ^ 7).
    { apply Rle_trans with (exp (INR 7 * 1)); [destruct E1 as [E1|E1]; [left; apply exp_increasing, E1|rewrite E1; lra]|].
      pose proof exp_le_3. pose proof (exp_pos 1). rewrite exp_INR. apply pow_incr. lra. }
    pose proof (exp_pos (INR k * q)). assert (0 <= INR k * (r + d) <= 1026 * (34 / 10 ^ 16)) by (unfold d; split; [apply Rmult_le_pos; lra|apply Rmult_le_compat; lra]).
    split; [apply Rmult_le_pos; lra|]. apply Rle_trans with (3 ^ 7 * (1026 * (34 / 10 ^ 16))); [apply Rmult_le_compat; lra|lra]. }
  destruct (rk_total_f64 decay_h zero one 1 1026%nat rungekutta4 rungekutta4 3 (fun _ x => Ret (vneg x)) (fun _ x => Ret (vneg x)) 1%nat decay_F (- / 100) 2 2 (100 / 99) 2 1 0 0 d (/ 10 ^ 8) 0 (decay_Y 0) decay_init (fun _ => one))
    as (N & tv & xv & HN & E & L1 & L2 & H);
  try (fold w); try (fold xi); try (fold theta); try (fold ups); try (fold r); try (fold q).
  1-6: reflexivity.
  - rewrite Zh; lra.
  - rewrite Z0, Z1; lra.
  - rewrite Z0, Rabs_R0; lra.
  - rewrite Z1, Rabs_pos_eq; lra.
  - lra.
  - rewrite Z0, Z1, Zh, INR_1026. lra.
  - rewrite INR_1026. change (IZR (2 ^ 47)) with 140737488355328. lra.
  - apply rk4_rounded.
  - rewrite Z0. lra.
  - rewrite Z1. lra.
  - apply decay_total.
  - apply decay_box_evaluates.
  - apply decay_computes.
  - apply decay_box_regular.
  - intros t s x Ht Hs Hw. apply decay_local; [exact Ht|exact Hs|lra].
  - intros l t Hl Ht. unfold decay_Y. rewrite pow_O, Rmult_1_l, Rabs_pos_eq by (left; apply exp_pos).
    pose proof (exp_ineq1_le (- / 100)) as Q. rewrite exp_Ropp in Q. apply Rle_trans with (exp (/ 100)).
    + destruct (Req_dec (- t) (/ 100)) as [->|]; [lra|]. left. apply exp_increasing. lra.
    + rewrite <- (Rinv_inv (exp (/ 100))). replace (100 / 99) with (/ (1 + - / 100)) by field. apply Rinv_le_contravar; lra.
  - lra.
  - lra.
  - lra.
  - lra.
  - unfold d; lra.
  - lra.
  - lra.
  - lra.
  - lra.
  - lra.
  - lra.
  - split; [|intros l Hl; split; reflexivity]. split; [reflexivity|]. split; [reflexivity|]. intros i j Hi Hj. assert (i = 0%nat) by lia. assert (j = 0%nat) by lia. subst. reflexivity.
  - intros l Hl. rewrite Z0, Z1. unfold decay_Y. replace (-0) with 0 by ring. rewrite exp_0. replace (1 - (-1) ^ 0 * 1) with 0 by ring. rewrite Rabs_R0. lra.
  - lra.
  - apply (Ex 1026%nat (le_n _)).
  - lra.
  - exists N, tv, xv. split; [exact HN|]. split; [exact E|]. split; [exact L1|]. split; [exact L2|]. intros i Hi. destruct (H i Hi) as (g & Hg & He). exists g. split; [exact Hg|].
    specialize (He 0%nat Nat.lt_0_1). cbv beta in He. unfold decay_Y in He. rewrite pow_O, Rmult_1_l in He. eapply Rle_trans; [exact He|]. apply Ex. lia.
Qed.
