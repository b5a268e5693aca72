(** The equation x' = -x in binary64 with the classical Runge-Kutta method. *)
From Coq Require Import Arith List Bool Lia ZArith Reals Lra Psatz SpecFloat.
From Flocq Require Import Core IEEE754.BinarySingleNaN.
From Verif Require Import Outcome Scalar RealOps Matrix_model Vector_model Int_model Ode_model Matrix_spec Ode_spec OdeConv_spec Optim_spec Matrix_proofs Vector_proofs Ode_proofs
  F64_spec F64Flocq F64Err_proofs F64Grid_proofs F64Ode_spec F64Euler_proofs F64EulerEx_proofs F64RK_proofs F64RKTab_proofs.
Import ListNotations.
Local Open Scope R_scope.
#[local] Existing Instance Hprec53.

(** 2^-3 *)
Definition decay_end : f64 := S754_finite false 4503599627370496 (-55).
Lemma decay_end_val : fval decay_end = / 8.
Proof. unfold decay_end, fval, SF2R, F2R, bpow. cbn -[Rmult Rinv IZR]. change (Z.pow_pos 2 55) with 36028797018963968%Z. lra. Qed.

Lemma decay_box_evaluates lo hi X : box_evaluates (fun (_ : f64) (x : vector f64) => Ret (vneg x)) 1 decay_F lo hi X 0.
Proof.
  intros t x g Vt Ft Bt (Hg & Hv) _. exists (vneg x), (fun i => neg (g i)). split; [reflexivity|]. split; [split|].
  - exact (mapply_spec (fun a : f64 => neg a) x 1 1 _ Hg).
  - intros l Hl. destruct (Hv l Hl) as (V & F). destruct (fopp_val _ V F) as (A & B & _). split; assumption.
  - intros l Hl. destruct (Hv l Hl) as (V & F). destruct (fopp_val _ V F) as (_ & _ & C). unfold decay_F. rewrite C, Rminus_eq_0, Rabs_R0. lra.
Qed.
Lemma decay_box_regular lo hi X : box_regular 1 decay_F lo hi X X 1 0.
Proof.
  split.
  - intros t x _ H l Hl. unfold decay_F. rewrite Rabs_Ropp. apply (H l Hl).
  - intros t t' x x' r _ _ _ _ H l Hl. unfold decay_F. specialize (H l Hl). cbv beta in H. replace (- x l - - x' l) with (- (x l - x' l)) by ring. rewrite Rabs_Ropp. lra.
Qed.
Lemma decay_computes : forall t : R, computes (fun x : vector R => Ret (vneg x)) 1 1 (decay_F t).
Proof. intros t x g Hg. exists (vneg x). split; [reflexivity|]. exact (mapply_spec (fun a : R => neg a) x 1 1 _ Hg). Qed.

Lemma INR_130 : INR 130 = 130.
Proof. rewrite INR_IZR_INZ. reflexivity. Qed.

Lemma decay_rk4 : exists N tv xv, (N <= 130)%nat /\
  fixed_solve (decay_h : f64) (do_step rungekutta4 (fun _ x => Ret (vneg x))) zero decay_end decay_init = Ret (tv, xv) /\
  length tv = S N /\ length xv = S N /\
  forall i, (i <= N)%nat -> exists g xR gR, fcol (nth i xv (mkMatrix 0 0 [])) 1 g /\
    exact_run rungekutta4 (fun _ x => Ret (vneg x)) (fun k => fval (nth k tv zero)) (mkMatrix 1 1 [1]) i = Ret xR /\ is_col xR 1 gR /\
    Rabs (fval (g 0%nat) - gR 0%nat) <= / 10 ^ 12.
Proof.
  assert (B10 : 4096 <= bpow radix2 990) by (change 4096 with (bpow radix2 12); apply bpow_le; lia).
  assert (B11 : 4096 <= bpow radix2 1000) by (change 4096 with (bpow radix2 12); apply bpow_le; lia).
  assert (Z0 : fval (zero : f64) = 0) by reflexivity. pose proof fval_one as Z1. pose proof decay_h_val as Zh. pose proof decay_end_val as Ze. pose proof eta64_pos as T0.
  assert (T1 : eta64 <= bpow radix2 (-80)) by (unfold eta64; apply bpow_le; lia).
  change (bpow radix2 (-80)) with (/ 1208925819614629174706176) in T1.
  set (w := fval decay_h + 4 * (INR 130 + 1) * uro * (/ 8)).
  set (xi := uro * (2 + 39 * w * (3 * (2 + 0))) + (33 * w + 2) * eta64).
  set (theta := uro * (9 / 8 * (/ 8) + 4 * w) + 2 * eta64).
  set (ups := 2 * uro * (/ 8)).
  set (r := xi + 3 * 2 * ups + 2 * w * 3 * (0 + 0 * (theta + ups) + 1 * (xi + 3 * 2 * ups))).
  set (q := 2 * 1 * 3 * w).
  assert (W : / 1024 <= w <= / 1023) by (unfold w; rewrite Zh, INR_130, uro_val; lra).
  assert (WT : 0 <= w * eta64 <= / 1208925819614629174706176) by nra.
  assert (Bxi : 0 <= xi <= 3 / 10 ^ 16).
  { unfold xi. rewrite uro_val. lra. }
  assert (Bups : 0 <= ups <= 3 / 10 ^ 17) by (unfold ups; rewrite uro_val; lra).
  assert (Bth : 0 <= theta <= / 1000) by (unfold theta; rewrite uro_val; lra).
  assert (Br : 0 <= r <= 5 / 10 ^ 16).
  { unfold r. set (z := xi + 3 * 2 * ups). assert (0 <= z <= 48 / 10 ^ 17) by (unfold z; lra). assert (0 <= w * z <= / 1023 * (48 / 10 ^ 17)) by (split; [apply Rmult_le_pos; lra|apply Rmult_le_compat; lra]).
    replace (z + 2 * w * 3 * (0 + 0 * (theta + ups) + 1 * z)) with (z + 6 * (w * z)) by ring. lra. }
  assert (Ex : forall k, (k <= 130)%nat -> 0 <= exp (INR k * q) * (INR k * r) <= / 10 ^ 12).
  { intros k Hk. apply le_INR in Hk. rewrite INR_130 in Hk. pose proof (pos_INR k).
    assert (E1 : INR k * q <= 1) by (unfold q; apply Rle_trans with (130 * (2 * 1 * 3 * / 1023)); [apply Rmult_le_compat; lra|lra]).
    assert (E2 : exp (INR k * q) <= 3) by (apply Rle_trans with (exp 1); [destruct E1 as [E1| ->]; [left; apply exp_increasing, E1|lra]|apply exp_le_3]).
    pose proof (exp_pos (INR k * q)). assert (0 <= INR k * r <= 130 * (5 / 10 ^ 16)) by (split; [apply Rmult_le_pos; lra|apply Rmult_le_compat; lra]).
    split; [apply Rmult_le_pos; lra|]. apply Rle_trans with (3 * (130 * (5 / 10 ^ 16))); [apply Rmult_le_compat; lra|lra]. }
  destruct (rk_run_apriori decay_h zero decay_end (/ 8) 130%nat rungekutta4 rungekutta4 3 (fun _ x => Ret (vneg x)) (fun _ x => Ret (vneg x)) 1%nat decay_F (-1) 2 2 (18 / 10) 2 1 0 0 decay_init (fun _ => one) (mkMatrix 1 1 [1]))
    with (X0 := 1) as (N & tv & xv & HN & E & L1 & L2 & H);
  try (fold w); try (fold xi); try (fold theta); try (fold ups); try (fold r); try (fold q).
  1-6: reflexivity.
  - rewrite Zh; lra.
  - rewrite Z0, Ze; lra.
  - rewrite Z0, Rabs_R0; lra.
  - rewrite Ze, Rabs_pos_eq; lra.
  - lra.
  - rewrite Z0, Ze, Zh, INR_130. lra.
  - rewrite INR_130. change (IZR (2 ^ 47)) with 140737488355328. lra.
  - apply rk4_rounded.
  - rewrite Z0. lra.
  - rewrite Ze. lra.
  - apply decay_total.
  - apply decay_box_evaluates.
  - apply decay_computes.
  - apply decay_box_regular.
  - lra.
  - lra.
  - lra.
  - lra.
  - lra.
  - lra.
  - lra.
  - lra.
  - split; [|intros l Hl; split; reflexivity]. split; [reflexivity|]. split; [reflexivity|]. intros i j Hi Hj. assert (i = 0%nat) by lia. assert (j = 0%nat) by lia. subst. reflexivity.
  - split; [reflexivity|]. split; [reflexivity|]. intros i j Hi Hj. assert (i = 0%nat) by lia. assert (j = 0%nat) by lia. subst. rewrite Z1. reflexivity.
  - lra.
  - lra.
  - pose proof (Ex 130%nat (le_n _)). lra.
  - intros l Hl. rewrite Z1, Rabs_R1. lra.
  - rewrite INR_130. lra.
  - exists N, tv, xv. split; [exact HN|]. split; [exact E|]. split; [exact L1|]. split; [exact L2|]. intros i Hi. destruct (H i Hi) as (g & xR & gR & Hg & ER & HgR & He). exists g, xR, gR. split; [exact Hg|].
    split; [exact ER|]. split; [exact HgR|]. specialize (He 0%nat Nat.lt_0_1). cbv beta in He. eapply Rle_trans; [exact He|]. apply Ex. lia.
Qed.
