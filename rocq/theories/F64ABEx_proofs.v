(** The equation x' = -x in binary64 with the Adams-Bashforth methods. *)
From Coq Require Import Arith List Bool Lia ZArith Reals Lra Psatz SpecFloat.
From Flocq Require Import Core IEEE754.BinarySingleNaN.
From Verif Require Import Outcome Scalar RealOps Matrix_model Vector_model Int_model Ode_model Matrix_spec Ode_spec OdeConv_spec Optim_spec Matrix_proofs Vector_proofs Ode_proofs
  F64_spec F64Flocq F64Err_proofs F64Grid_proofs F64Ode_spec F64Euler_proofs F64EulerEx_proofs F64RK_proofs F64RKTab_proofs F64RKEx_proofs F64AB_spec F64AB_proofs.
Import ListNotations.
Local Open Scope R_scope.

(** 2^-5 *)
Definition decay_stop : f64 := S754_finite false 4503599627370496 (-57).
Lemma decay_stop_val : fval decay_stop = / 32.
Proof. unfold decay_stop, fval, SF2R, F2R, bpow. cbn -[Rmult Rinv IZR]. change (Z.pow_pos 2 57) with 144115188075855872%Z. lra. Qed.
Lemma INR_34 : INR 34 = 34.
Proof. rewrite INR_IZR_INZ. reflexivity. Qed.

Lemma decay_ab k : (1 <= k <= 5)%nat -> exists tv xv z, (length tv <= 35)%nat /\ length xv = length tv /\
  (forall fuel, (34 <= fuel)%nat -> ab_solve (fun _ x => Ret (vneg x)) (decay_h : f64) decay_stop fuel k zero decay_init = Ret (Some (tv, xv))) /\
  z 0%nat 0%nat = 1 /\ adams_run decay_F k 1 (fun i => fval (nth i tv zero)) z (length tv - 1) /\
  forall i, (i < length tv)%nat -> exists G, fcol (nth i xv (mkMatrix 0 0 [])) 1 G /\ Rabs (fval (G 0%nat) - z i 0%nat) <= / 10 ^ 12.
Proof.
  intros Hk.
  assert (B10 : 4096 <= bpow radix2 990) by (change 4096 with (bpow radix2 12); apply bpow_le; lia).
  assert (B11 : 4096 <= bpow radix2 1000) by (change 4096 with (bpow radix2 12); apply bpow_le; lia).
  assert (Z0 : fval (zero : f64) = 0) by reflexivity. pose proof fval_one as Z1. pose proof decay_h_val as Zh. pose proof decay_stop_val as Ze. pose proof eta64_pos as T0.
  assert (T1 : eta64 <= bpow radix2 (-80)) by (unfold eta64; apply bpow_le; lia).
  change (bpow radix2 (-80)) with (/ 1208925819614629174706176) in T1.
  set (w := fval decay_h + 4 * (INR 34 + 1) * uro * (/ 32)). set (P := 13 * (2 + 0)).
  set (xi := uro * (2 + 39 * w * P) + (33 * w + 2) * eta64).
  set (r := xi + 13 * 2 * (2 * uro * (/ 32)) + w * (13 * 0)).
  set (q := 13 * 1 * w).
  assert (W : / 1024 <= w <= / 1023) by (unfold w; rewrite Zh, INR_34, uro_val; lra).
  assert (WT : 0 <= w * eta64 <= / 1208925819614629174706176) by nra.
  assert (Bxi : 0 <= xi <= 5 / 10 ^ 16) by (unfold xi, P; rewrite uro_val; lra).
  assert (Br : 0 <= r <= / 10 ^ 15) by (unfold r; rewrite uro_val; lra).
  assert (Ex : forall p, (p <= 34)%nat -> 0 <= exp (INR p * q) * (INR p * r) <= / 10 ^ 12).
  { intros p Hp. apply le_INR in Hp. rewrite INR_34 in Hp. pose proof (pos_INR p).
    assert (E1 : INR p * q <= 1) by (unfold q; apply Rle_trans with (34 * (13 * 1 * / 1023)); [apply Rmult_le_compat; lra|lra]).
    assert (E2 : exp (INR p * q) <= 3) by (apply Rle_trans with (exp 1); [destruct E1 as [E1| ->]; [left; apply exp_increasing, E1|lra]|apply exp_le_3]).
    pose proof (exp_pos (INR p * q)). assert (0 <= INR p * r <= 34 * (/ 10 ^ 15)) by (split; [apply Rmult_le_pos; lra|apply Rmult_le_compat; lra]).
    split; [apply Rmult_le_pos; lra|]. apply Rle_trans with (3 * (34 * (/ 10 ^ 15))); [apply Rmult_le_compat; lra|lra]. }
  pose proof (Ex 34%nat (le_n _)) as Ex34.
  destruct (ab_shipped decay_h zero decay_stop (/ 32) 34 k (fun _ x => Ret (vneg x)) 1 decay_F (-1) 2 2 (19 / 10) 2 1 0 0 decay_init (fun _ => one))
    with (X0 := 1) as (tv & xv & z & HL & HL2 & ER & HZ & Hz & H);
  try (fold w); try (fold P); try (fold xi); try (fold r); try (fold q).
  1-6: reflexivity.
  - rewrite Zh; lra.
  - rewrite Z0, Ze; lra.
  - rewrite Z0, Rabs_R0; lra.
  - rewrite Ze, Rabs_pos_eq; lra.
  - lra.
  - rewrite INR_34. change (IZR (2 ^ 47)) with 140737488355328. lra.
  - exact Hk.
  - rewrite Z0, INR_34, uro_val. lra.
  - rewrite Ze, INR_34, uro_val. lra.
  - apply decay_total.
  - apply decay_box_evaluates.
  - apply decay_box_regular.
  - lra.
  - lra.
  - lra.
  - unfold P. lra.
  - unfold P. lra.
  - lra.
  - split; [|intros l Hl; split; reflexivity]. split; [reflexivity|]. split; [reflexivity|]. intros i j Hi Hj. assert (i = 0%nat) by lia. assert (j = 0%nat) by lia. subst. reflexivity.
  - lra.
  - lra.
  - rewrite Z0, Ze, Zh, INR_34. lra.
  - lia.
  - rewrite INR_34, uro_val. lra.
  - intros l Hl. rewrite Z1, Rabs_R1. lra.
  - rewrite INR_34. lra.
  - exists tv, xv, z. split; [exact HL|]. split; [exact HL2|]. split; [exact ER|]. split; [rewrite (HZ 0%nat ltac:(lia)); exact Z1|]. split; [exact Hz|]. intros i Hi.
    destruct (H i Hi) as (G & HG & He). exists G. split; [exact HG|]. specialize (He 0%nat Nat.lt_0_1). cbv beta in He. eapply Rle_trans; [exact He|]. apply Ex. lia.
Qed.
