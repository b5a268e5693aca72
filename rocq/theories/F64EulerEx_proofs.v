(** The equation x' = -x in binary64: the hypotheses of the error bound for the explicit Euler method hold. *)
From Coq Require Import Arith List Bool Lia ZArith Reals Lra Psatz SpecFloat.
From Flocq Require Import Core IEEE754.BinarySingleNaN.
From Coquelicot Require Import Coquelicot.
From Verif Require Import Outcome Scalar RealOps Matrix_model Vector_model Int_model Ode_model Matrix_spec Ode_spec OdeConv_spec Matrix_proofs Vector_proofs Ode_proofs
  F64_spec F64Flocq F64Err_proofs F64Grid_proofs F64Ode_spec F64Euler_proofs.
Import ListNotations.
Local Open Scope R_scope.
#[local] Existing Instance Hprec53.

(** 2^-10 *)
Definition decay_h : f64 := S754_finite false 4503599627370496 (-62).
Definition decay_init : vector f64 := mkMatrix 1 1 [one].
Definition decay_F (t : R) (x : nat -> R) (l : nat) : R := - x l.
Definition decay_Y (k l : nat) (t : R) : R := (-1) ^ k * exp (- t).

Lemma decay_h_val : fval decay_h = / 1024.
Proof. unfold decay_h, fval, SF2R, F2R, bpow. cbn -[Rmult Rinv IZR]. change (Z.pow_pos 2 62) with 4611686018427387904%Z. lra. Qed.

Lemma fopp_val (x : f64) : fvalid x -> ffin x = true -> fvalid (neg x) /\ ffin (neg x) = true /\ fval (neg x) = - fval x.
Proof.
  intros V F. destruct x as [s|s| |s mm ee]; try discriminate F; cbn.
  - split; [reflexivity|]. split; [reflexivity|]. unfold fval; cbn. lra.
  - split; [exact V|]. split; [reflexivity|]. unfold fval, SF2R. rewrite <- F2R_Zopp. f_equal. destruct s; reflexivity.
Qed.

Lemma decay_total : rhs_total (fun (_ : f64) (x : vector f64) => Ret (vneg x)) 1.
Proof. intros t x g Hg. exists (vneg x), (fun i => neg (g i)). split; [reflexivity|]. exact (mapply_spec (fun a : f64 => neg a) x 1 1 _ Hg). Qed.
Lemma decay_evaluates lo hi y rho : evaluates (fun (_ : f64) (x : vector f64) => Ret (vneg x)) 1 decay_F lo hi y rho 0.
Proof.
  intros t x g Vt Ft Bt (Hg & Hv) _. exists (vneg x), (fun i => neg (g i)). split; [reflexivity|]. split; [split|].
  - exact (mapply_spec (fun a : f64 => neg a) x 1 1 _ Hg).
  - intros l Hl. destruct (Hv l Hl) as (V & F). destruct (fopp_val _ V F) as (A & B & _). split; assumption.
  - intros l Hl. destruct (Hv l Hl) as (V & F). destruct (fopp_val _ V F) as (_ & _ & C). unfold decay_F. rewrite C, Rminus_eq_0, Rabs_R0. lra.
Qed.
Lemma decay_solution lo hi : smooth_solution 1 decay_F lo hi 2 decay_Y.
Proof.
  split; [|split].
  - intros i t _ _. unfold decay_Y, decay_F. ring.
  - intros k i t _ _ _. unfold decay_Y. auto_derive; [exact I|]. cbn [pow]. ring.
  - exists (exp (- lo)). intros k i t _ _ Ht. unfold decay_Y. rewrite Rabs_mult, <- RPow_abs, (Rabs_left (-1)) by lra. replace (- -1) with 1 by ring. rewrite pow1, Rmult_1_l.
    rewrite Rabs_pos_eq by (left; apply exp_pos). destruct (Req_dec t lo) as [->|]; [lra|]. left. apply exp_increasing. lra.
Qed.
Lemma decay_lipschitz lo hi y rho : lipschitz_near 1 decay_F lo hi y rho 1.
Proof. intros t x x' r _ _ _ H i Hi. unfold decay_F. specialize (H i Hi). cbv beta in H. replace (- x i - - x' i) with (- (x i - x' i)) by ring. rewrite Rabs_Ropp. lra. Qed.

Lemma INR_1026 : INR 1026 = 1026.
Proof. rewrite INR_IZR_INZ. reflexivity. Qed.

Lemma decay_run : exists N tv xv, (N <= 1026)%nat /\
  fixed_solve (decay_h : f64) (do_step explicit_euler (fun _ x => Ret (vneg x))) zero one decay_init = Ret (tv, xv) /\
  length tv = S N /\ length xv = S N /\
  forall i, (i <= N)%nat -> exists g, fcol (nth i xv (mkMatrix 0 0 [])) 1 g /\
    Rabs (fval (g 0%nat) - exp (- fval (nth i tv zero))) <= 1 / 200.
Proof.
  assert (B10 : 4096 <= bpow radix2 1000) by (change 4096 with (bpow radix2 12); apply bpow_le; lia).
  assert (Z0 : fval (zero : f64) = 0) by reflexivity. pose proof fval_one as Z1. pose proof decay_h_val as Zh. pose proof eta64_pos as T0.
  assert (T1 : eta64 <= / 1073741824) by (unfold eta64; change (/ 1073741824) with (bpow radix2 (-30)); apply bpow_le; lia).
  set (w := fval decay_h + 4 * (INR 1026 + 1) * uro * 1).
  set (d := 3 / 2 * w ^ 2 + w * 0 + uro * (2 * 1 * 4 + 4 + 3 * 4 * w) + 2 * eta64).
  assert (W : / 1024 <= w <= / 1020).
  { unfold w. rewrite Zh, INR_1026, uro_val. lra. }
  assert (Bd : 0 <= d <= 15 / 10000000).
  { unfold d. rewrite uro_val. assert (0 <= w ^ 2 <= / 1040400) by (split; [apply pow2_ge_0|]; replace (/ 1040400) with ((/ 1020) ^ 2) by lra; apply pow_incr; lra). lra. }
  assert (Ex : forall k, (k <= 1026)%nat -> exp (INR k * (1 * w)) * (0 + INR k * d) <= 1 / 200).
  { intros k Hk. apply le_INR in Hk. rewrite INR_1026 in Hk. pose proof (pos_INR k).
    assert (E1 : INR k * (1 * w) <= 1 + 26 / 1000) by (apply Rle_trans with (1026 * / 1000); [apply Rmult_le_compat; lra|lra]).
    assert (E2 : exp (INR k * (1 * w)) <= exp (1 + 26 / 1000)) by (destruct E1 as [E1| ->]; [left; apply exp_increasing, E1|lra]).
    assert (E3 : exp (26 / 1000) <= 1 + 1 / 36).
    { pose proof (exp_ineq1_le (- (26 / 1000))) as Q. rewrite exp_Ropp in Q. apply Rle_trans with (/ (1 + - (26 / 1000))); [|replace (/ (1 + - (26 / 1000))) with (500 / 487) by field; lra].
      rewrite <- (Rinv_inv (exp (26 / 1000))). apply Rinv_le_contravar; lra. }
    rewrite exp_plus in E2. pose proof exp_le_3 as E4. pose proof (exp_pos 1). pose proof (exp_pos (26 / 1000)). pose proof (exp_pos (INR k * (1 * w))).
    assert (E5 : exp 1 * exp (26 / 1000) <= 3 * (1 + 1 / 36)) by (apply Rmult_le_compat; lra).
    assert (INR k * d <= 1026 * (15 / 10000000)) by (apply Rmult_le_compat; lra).
    apply Rle_trans with (3 * (1 + 1 / 36) * (1026 * (15 / 10000000))); [|lra]. assert (0 <= INR k * d) by (apply Rmult_le_pos; lra). apply Rmult_le_compat; lra. }
  assert (Ye : forall t, - / 1000 <= t -> 0 < exp (- t) <= 3).
  { intros t Ht. split; [apply exp_pos|]. apply Rle_trans with (exp 1); [|apply exp_le_3]. left. apply exp_increasing. lra. }
  destruct (euler_f64 decay_h zero one 1 1026%nat (fun _ x => Ret (vneg x)) 1%nat decay_F decay_Y 1 1 0 3 4 4 0 decay_init (fun _ => one)) as (N & tv & xv & HN & E & L1 & L2 & H).
  - reflexivity.
  - reflexivity.
  - reflexivity.
  - reflexivity.
  - reflexivity.
  - reflexivity.
  - rewrite Zh; lra.
  - rewrite Z0, Z1; lra.
  - rewrite Z0, Rabs_R0; lra.
  - rewrite Z1, Rabs_R1; lra.
  - lra.
  - rewrite Z0, Z1, Zh, INR_1026. lra.
  - rewrite INR_1026. change (IZR (2 ^ 47)) with 140737488355328. lra.
  - lia.
  - apply decay_solution.
  - apply decay_lipschitz.
  - lra.
  - lra.
  - lra.
  - lra.
  - intros l t Hl Ht. rewrite Z0, Z1, INR_1026, uro_val in Ht. assert (Ye' := Ye t ltac:(lra)). unfold decay_Y.
    replace ((-1) ^ 2 * exp (- t)) with (exp (- t)) by ring. replace ((-1) ^ 1 * exp (- t)) with (- exp (- t)) by ring. replace ((-1) ^ 0 * exp (- t)) with (exp (- t)) by ring.
    rewrite Rabs_Ropp, Rabs_pos_eq by lra. lra.
  - lra.
  - fold w. lra.
  - apply decay_total.
  - apply decay_evaluates.
  - split; [|intros l Hl; split; reflexivity]. split; [reflexivity|]. split; [reflexivity|]. intros i j Hi Hj. assert (i = 0%nat) by lia. assert (j = 0%nat) by lia. subst. reflexivity.
  - intros l Hl. rewrite Z0, Z1. unfold decay_Y. replace (-0) with 0 by ring. rewrite exp_0. replace (1 - (-1) ^ 0 * 1) with 0 by ring. rewrite Rabs_R0. lra.
  - fold w. fold d. eapply Rle_trans; [apply (Ex 1026%nat (le_n _))|lra].
  - exists N, tv, xv. split; [exact HN|]. split; [exact E|]. split; [exact L1|]. split; [exact L2|]. intros i Hi. destruct (H i Hi) as (g & Hg & He). exists g. split; [exact Hg|].
    specialize (He 0%nat Nat.lt_0_1). cbv beta in He. fold w in He. fold d in He. unfold decay_Y in He. rewrite pow_O, Rmult_1_l in He. eapply Rle_trans; [exact He|]. apply Ex. lia.
Qed.
