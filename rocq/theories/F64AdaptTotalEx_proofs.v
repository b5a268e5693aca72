(** x' = -x with the default step control: the total error of the adaptive run. *)
From Coq Require Import Arith List Bool Lia ZArith Reals Lra SpecFloat.
From Flocq Require Import Core IEEE754.BinarySingleNaN.
From Coquelicot Require Import Coquelicot.
From Verif Require Import Outcome Scalar RealOps Matrix_model Vector_model Int_model Ode_model Matrix_spec Ode_spec OdeConv_spec Optim_spec Matrix_proofs Vector_proofs Ode_proofs OdeConv_proofs OdeOrder_proofs OdeGlobal_proofs
  F64_spec F64Flocq F64Err_proofs F64Grid_proofs F64Ode_spec F64Euler_proofs F64EulerEx_proofs F64RK_proofs F64RKTab_proofs F64RKEx_proofs F64Chol_proofs F64Adapt_spec F64Adapt_proofs F64AdaptEx_proofs F64AdaptTotal_proofs.
Import ListNotations.
Local Open Scope R_scope.

Lemma exp_taylor4 u : 0 <= u -> Rabs (exp (- u) - (1 - u + u ^ 2 / 2 - u ^ 3 / 6)) <= u ^ 4.
Proof.
  intros U0. pose proof (taylor_bound 4 (fun k s => (-1) ^ k * exp (- s)) 0 u 1 U0) as T. cbv beta in T. rewrite Rplus_0_l in T.
  replace (exp (- u) - (1 - u + u ^ 2 / 2 - u ^ 3 / 6)) with ((-1) ^ 0 * exp (- u) - tpoly (fun r => (-1) ^ r * exp (- 0)) 4 u).
  - rewrite <- (Rmult_1_l (u ^ 4)). apply T.
    + intros k s _ _. auto_derive; [exact I|]. cbn [pow]. ring.
    + intros s Hs. rewrite Rabs_mult, <- RPow_abs, (Rabs_left (-1)) by lra. replace (- -1) with 1 by ring. rewrite pow1, Rmult_1_l, Rabs_pos_eq by (left; apply exp_pos).
      rewrite <- exp_0. apply exp_mono. lra.
  - rewrite Ropp_0, exp_0. unfold tpoly. cbn [sumn]. change (@add R R_ops) with Rplus. change (@zero R R_ops) with 0. cbn [fact]. simpl INR. field.
Qed.
Lemma decay_bs_step t x s v : is_col x 1 (fun _ => v) ->
  exists x', do_step (returned_method bogacki_shampine23) (fun _ (x : vector R) => Ret (vneg x)) t x s = Ret x' /\ is_col x' 1 (fun _ => v * (1 - s + s ^ 2 / 2 - s ^ 3 / 6)).
Proof.
  intros Hx. assert (Tot : rhs_total (fun (_ : R) (x : vector R) => Ret (vneg x)) 1) by (intros t' x' g' Hg'; destruct (decay_computes t' x' g' Hg') as (y' & E & Hy); eauto).
  destruct (do_step_spec (returned_method bogacki_shampine23) (fun _ (x : vector R) => Ret (vneg x)) 1 t x (fun _ => v) s) as (x' & K & E & (K0 & KS) & Hr); [cbn; lia|split; cbn; lia|exact Hx|exact Tot|].
  exists x'. split; [exact E|].
  assert (KV : forall z k g, is_col z 1 g -> Ret (vneg z) = Ret k -> forall kk, is_col k 1 kk -> kk 0%nat = - g 0%nat).
  { intros z k g Hz Ek kk Hk. injection Ek as <-. destruct (decay_computes 0 z g Hz) as (y & Ey & Hy). injection Ey as <-. apply (rcol_unique _ 1 kk (decay_F 0 g) 0 Hk Hy Nat.lt_0_1). }
  assert (Q0 : K 0%nat 0%nat = - v). { destruct K0 as (k0 & E0 & H0). exact (KV x k0 _ Hx E0 _ H0). }
  assert (QS : forall j, (0 < j < 4)%nat -> K j 0%nat = - (v + sumn j (fun l => K l 0%nat * a_of (ta (returned_method bogacki_shampine23)) j l) * s)).
  { intros j Hj. destruct (KS j ltac:(cbn; lia)) as (xj & kj & Hxj & Ej & Hkj). exact (KV xj kj _ Hxj Ej _ Hkj). }
  pose proof (QS 1%nat ltac:(lia)) as Q1. pose proof (QS 2%nat ltac:(lia)) as Q2. pose proof (QS 3%nat ltac:(lia)) as Q3. clear QS KS.
  cbv beta iota delta [a_of returned_method bogacki_shampine23 ta ta2 nth Nat.mul Nat.add Nat.div Nat.sub Nat.divmod fst snd sumn] in Q1, Q2, Q3. rewrite ?lit_R in Q1, Q2, Q3.
  change (@add R R_ops) with Rplus in *; change (@mul R R_ops) with Rmult in *; change (@zero R R_ops) with 0 in *; change (@one R R_ops) with 1 in *.
  destruct Hr as (R1 & R2 & R3). split; [exact R1|]. split; [exact R2|]. intros i j Hi Hj. assert (i = 0%nat) by lia. subst i. rewrite (R3 0%nat j Nat.lt_0_1 Hj). f_equal.
  cbv beta iota delta [b_of returned_method bogacki_shampine23 tb tb2 nth length sumn]. rewrite ?lit_R.
  change (@add R R_ops) with Rplus in *; change (@mul R R_ops) with Rmult in *; change (@zero R R_ops) with 0 in *; change (@one R R_ops) with 1 in *.
  rewrite ?Q3, ?Q2, ?Q1, ?Q0, ?lit_R. field.
Qed.
Lemma decay_rate w : 0 <= w -> local_rate (returned_method bogacki_shampine23) (fun _ (x : vector R) => Ret (vneg x)) 1 (fun _ t => exp (- t)) (-1) 2 w (3 * w ^ 3).
Proof.
  intros W0 t s x Ht Hts Hs Hx. destruct (decay_bs_step t x s (exp (- t)) Hx) as (x' & E & Hr).
  exists x', (fun _ => exp (- t) * (1 - s + s ^ 2 / 2 - s ^ 3 / 6)). split; [exact E|]. split; [exact Hr|]. intros l Hl.
  replace (- (t + s)) with (- t + - s) by ring. rewrite exp_plus, <- Rmult_minus_distr_l, Rabs_mult, Rabs_minus_sym, (Rabs_pos_eq (exp (- t))) by (left; apply exp_pos).
  assert (E3 : 0 <= exp (- t) <= 3) by (split; [left; apply exp_pos|]; eapply Rle_trans; [apply (exp_mono (- t) 1); lra|apply exp_le_3]).
  assert (P : s ^ 3 <= w ^ 3) by (apply pow_incr; lra). assert (P0 : 0 <= s ^ 3) by (apply pow_le; lra).
  apply Rle_trans with (3 * s ^ 4); [apply Rmult_le_compat; [lra|apply Rabs_pos|lra|apply exp_taylor4; lra]|].
  replace (3 * s ^ 4) with (3 * s ^ 3 * s) by ring. apply Rmult_le_compat_r; lra.
Qed.

Lemma decay_adaptive_total : exists xv, length xv = 6%nat /\
  @adapt_solve f64 F64_ops (F64_pops demo_pow) pc_default (do_step2 bogacki_shampine23 (fun _ x => Ret (vneg x))) (fst bogacki_shampine23_order) 20 zero demo_stop decay_init = Ret (Some (Some (demo_times, xv))) /\
  forall i, (i < 6)%nat -> exists g, fcol (nth i xv (mkMatrix 0 0 [])) 1 g /\ Rabs (fval (g 0%nat) - exp (- fval (nth i demo_times zero))) <= 3 / 10 ^ 6.
Proof.
  assert (B10 : 4096 <= bpow radix2 990) by (change 4096 with (bpow radix2 12); apply bpow_le; lia).
  assert (B11 : 4096 <= bpow radix2 1000) by (change 4096 with (bpow radix2 12); apply bpow_le; lia).
  assert (Z0 : fval (zero : f64) = 0) by reflexivity. pose proof fval_one as Z1. pose proof demo_stop_val as Ze. pose proof eta64_pos as T0.
  assert (T1 : eta64 <= bpow radix2 (-80)) by (unfold eta64; apply bpow_le; lia).
  change (bpow radix2 (-80)) with (/ 1208925819614629174706176) in T1.
  assert (E : exists xv, @adapt_solve f64 F64_ops (F64_pops demo_pow) pc_default (do_step2 bogacki_shampine23 (fun _ x => Ret (vneg x))) (fst bogacki_shampine23_order) 20 zero demo_stop decay_init = Ret (Some (Some (demo_times, xv))) /\ length xv = 6%nat).
  { eexists. split; [vm_compute; reflexivity|reflexivity]. }
  destruct E as (xv & E & Lx). exists xv. split; [exact Lx|]. split; [exact E|].
  set (w := 21 / 1000).
  set (xi := uro * (4 + 39 * w * (1 * (4 + 0))) + (33 * w + 2) * eta64).
  set (theta := uro * (9 / 8 * (/ 16) + 4 * w) + 2 * eta64).
  set (ups := 2 * uro * (/ 16)).
  set (a := xi + 1 * 4 * ups).
  set (b := 2 * 1 * (0 + 0 * (theta + ups) + 1 * a)).
  set (D := 3 * w ^ 3).
  set (bound := fun T i => exp (2 * 1 * 1 * (T + INR i * ups)) * (0 + INR i * a + (b + D) * (T + INR i * ups))).
  assert (Bxi : 0 <= xi <= / 10 ^ 15) by (unfold xi, w; rewrite uro_val; lra).
  assert (Bups : 0 <= ups <= 3 / 10 ^ 17) by (unfold ups; rewrite uro_val; lra).
  assert (Bth : 0 <= theta <= / 1000) by (unfold theta, w; rewrite uro_val; lra).
  assert (Ba : 0 <= a <= 2 / 10 ^ 15) by (unfold a; lra).
  assert (Bb : 0 <= b <= / 10 ^ 14) by (unfold b; lra).
  assert (BD : 0 <= D <= 28 / 10 ^ 6) by (unfold D, w; lra).
  assert (INR 5 = 5) as I5 by (cbn; lra).
  assert (Ex : forall T k, 0 <= T <= / 16 + / 10 ^ 6 -> (k <= 5)%nat -> 0 <= bound T k <= 3 / 10 ^ 6).
  { intros T k HT Hk. apply le_INR in Hk. rewrite I5 in Hk. pose proof (pos_INR k). unfold bound.
    assert (K1 : 0 <= INR k * ups <= / 10 ^ 6) by (split; [apply Rmult_le_pos; lra|apply Rle_trans with (5 * (3 / 10 ^ 17)); [apply Rmult_le_compat; lra|lra]]).
    assert (K2 : 0 <= INR k * a <= / 10 ^ 10) by (split; [apply Rmult_le_pos; lra|apply Rle_trans with (5 * (2 / 10 ^ 15)); [apply Rmult_le_compat; lra|lra]]).
    assert (K3 : 0 <= (b + D) * (T + INR k * ups) <= 29 / 10 ^ 6 * (63 / 1000)) by (split; [apply Rmult_le_pos; lra|apply Rmult_le_compat; lra]).
    assert (E1 : exp (2 * 1 * 1 * (T + INR k * ups)) <= 6 / 5).
    { apply Rle_trans with (exp (/ 8 + 5 / 10 ^ 6)); [apply exp_mono; lra|]. pose proof (exp_ineq1_le (- (/ 8 + 5 / 10 ^ 6))) as Q. rewrite exp_Ropp in Q.
      pose proof (exp_pos (/ 8 + 5 / 10 ^ 6)) as P. apply Rmult_le_reg_r with (/ exp (/ 8 + 5 / 10 ^ 6)); [apply Rinv_0_lt_compat, P|]. rewrite Rinv_r by lra. lra. }
    pose proof (exp_pos (2 * 1 * 1 * (T + INR k * ups))). split; [apply Rmult_le_pos; lra|].
    apply Rle_trans with (6 / 5 * (/ 10 ^ 10 + 29 / 10 ^ 6 * (63 / 1000))); [apply Rmult_le_compat; lra|lra]. }
  intros i Hi. destruct (adapt_total demo_pow pc_default zero demo_stop (/ 16) 5 bogacki_shampine23 (returned_method bogacki_shampine23) 1 (fun _ x => Ret (vneg x)) (fun _ x => Ret (vneg x)) 1%nat decay_F (-1) 2 4 3 4 1 0 0 w D (3 / 10 ^ 6) 0 (fun _ t => exp (- t)) decay_init (fun _ => one))
    with (ord := fst bogacki_shampine23_order) (fuel := 20%nat) (tv := demo_times) (xv := xv) (i := i) as (g & Hg & He);
  try (fold xi); try (fold theta); try (fold ups); try (fold a); try (fold b).
  - exact demo_valued.
  - eapply lit_fpos; vm_compute; reflexivity.
  - reflexivity.
  - eapply lit_fpos; vm_compute; reflexivity.
  - eapply lit_fpos; vm_compute; reflexivity.
  - reflexivity.
  - reflexivity.
  - reflexivity.
  - reflexivity.
  - rewrite Z0, Ze; lra.
  - rewrite Z0, Rabs_R0; lra.
  - rewrite Ze, Rabs_pos_eq; lra.
  - lra.
  - apply (proj1 (Forall_forall _ _) embedded_rounded (bogacki_shampine23, bogacki_shampine23, 1)). cbn [In embedded_pairs]. tauto.
  - rewrite Z0. unfold w. lra.
  - rewrite Ze, uro_val. unfold w. lra.
  - apply decay_total.
  - apply decay_box_evaluates.
  - apply decay_computes.
  - apply decay_box_regular.
  - apply decay_rate. unfold w. lra.
  - intros l t Hl Ht. rewrite Rabs_pos_eq by (left; apply exp_pos). eapply Rle_trans; [apply (exp_mono (- t) 1); lra|apply exp_le_3].
  - lra.
  - lra.
  - lra.
  - lra.
  - unfold w; lra.
  - lra.
  - lra.
  - lra.
  - unfold w; lra.
  - lra.
  - lra.
  - unfold w; lra.
  - split; [|intros l Hl; split; reflexivity]. split; [reflexivity|]. split; [reflexivity|]. intros i' j Hi' Hj. assert (i' = 0%nat) by lia. assert (j = 0%nat) by lia. subst. reflexivity.
  - intros l Hl. rewrite Z0, Z1, Ropp_0, exp_0, Rminus_eq_0, Rabs_R0. lra.
  - lra.
  - rewrite Z0, Ze, uro_val. apply (Ex _ 5%nat); [lra|lia].
  - unfold w. lra.
  - exact E.
  - cbn; lia.
  - intros j Hj. cbn [demo_times length] in Hj. unfold w. assert (C : (j = 0 \/ j = 1 \/ j = 2 \/ j = 3 \/ j = 4)%nat) by lia.
    destruct C as [->|[->|[->|[->| ->]]]]; cbn [nth demo_times]; unfold demo_stop; change (fval (S754_zero false)) with 0; rewrite ?ff_val;
      cbn [Z.pow Z.pow_pos Pos.iter Z.mul Pos.mul]; lra.
  - exact Hi.
  - exists g. split; [exact Hg|]. specialize (He 0%nat Nat.lt_0_1). cbv beta in He. eapply Rle_trans; [exact He|].
    apply (Ex _ i); [|lia]. assert (C : (i = 0 \/ i = 1 \/ i = 2 \/ i = 3 \/ i = 4 \/ i = 5)%nat) by lia. rewrite Z0.
    destruct C as [->|[->|[->|[->|[->| ->]]]]]; cbn [nth demo_times]; unfold demo_stop; change (fval (S754_zero false)) with 0; rewrite ?ff_val;
      cbn [Z.pow Z.pow_pos Pos.iter Z.mul Pos.mul]; lra.
Qed.

Lemma adapt_total_shipped pw (p : pcontrol (T := f64)) (t0 t1 : f64) M n B64 B A f fR m F lo hi X YB K L Lt eps w D rho delta y init g0 :
  f64_valued pw -> fpos (h_0 p) -> fvalid (fac p) -> fpos (fac_min p) -> fpos (fac_max p) ->
  fvalid t0 -> fvalid t1 -> ffin t0 = true -> ffin t1 = true ->
  fval t0 <= fval t1 -> Rabs (fval t0) <= M -> Rabs (fval t1) <= M -> M <= bpow radix2 1000 ->
  In (B64, B, A) embedded_pairs ->
  let xi := uro * (X + 39 * w * (A * (K + eps))) + (33 * w + 2) * eta64 in
  let theta := uro * (9 / 8 * M + 4 * w) + 2 * eta64 in
  let ups := 2 * uro * M in
  let a := xi + A * K * ups in
  let b := 2 * A * (eps + Lt * (theta + ups) + L * a) in
  let bound T i := exp (2 * L * A * (T + INR i * ups)) * (delta + INR i * a + (b + D) * (T + INR i * ups)) in
  lo + w + theta <= fval t0 -> fval t1 + 4 * uro * M + w + theta <= hi ->
  rhs_total f m -> box_evaluates f m F lo hi X eps -> (forall t, computes (fR t) m m (F t)) -> box_regular m F lo hi X K L Lt ->
  local_rate (returned_method B) fR m y lo hi w D -> (forall l t, (l < m)%nat -> lo <= t <= hi -> Rabs (y l t) <= YB) ->
  0 <= L -> 0 <= Lt -> 0 <= eps -> 0 <= K -> 0 <= w -> 0 <= D -> 0 <= delta -> 0 <= YB ->
  L * w * A <= / 2 -> A * (K + eps) <= bpow radix2 990 -> X <= bpow radix2 1000 -> 9 / 8 * M + w <= bpow radix2 1000 ->
  fcol init m g0 -> within m (fun l => fval (g0 l) - y l (fval t0)) delta -> 0 <= X ->
  bound (fval t1 - fval t0 + 4 * uro * M) n <= rho -> YB + rho + w * (A * (K + eps)) + xi <= X ->
  forall ord fuel tv xv, @adapt_solve f64 F64_ops (F64_pops pw) p (do_step2 B64 f) ord fuel t0 t1 init = Ret (Some (Some (tv, xv))) ->
  (length tv <= S n)%nat ->
  let tau k := fval (nth k tv zero) in
  (forall i, (S i < length tv)%nat -> tau (S i) - tau i <= w - ups) ->
  forall i, (i < length tv)%nat -> exists g, fcol (nth i xv (mkMatrix 0 0 [])) m g /\
    within m (fun l => fval (g l) - y l (tau i)) (bound (tau i - fval t0) i).
Proof.
  intros P1 P2 P3 P4 P5 P6 P7 P8 P9 P10 P11 P12 P13 HB. refine (adapt_total pw p t0 t1 M n B64 (returned_method B) A f fR m F lo hi X YB K L Lt eps w D rho delta y init g0 P1 P2 P3 P4 P5 P6 P7 P8 P9 P10 P11 P12 P13 _).
  exact (proj1 (Forall_forall _ _) embedded_rounded (B64, B, A) HB).
Qed.
