(** The logarithm of the gamma function in binary64. *)
From Coq Require Import Arith Lia List Bool ZArith Reals Lra Psatz SpecFloat.
From Flocq Require Import Core IEEE754.BinarySingleNaN.
From Verif Require Int_proofs F64Libm_proofs.
From Verif Require Import Outcome Scalar RealOps Elem_model Int_model Ode_model Special_model Special_spec Stat_spec F64_spec F64Cplx_spec F64Gamma_spec F64LnGamma_spec
  Discrete_proofs OdeOrder_proofs Special_proofs GammaFun_proofs Stirling_proofs Lanczos_proofs LanczosAcc_proofs LnGammaAcc_proofs Reflection_proofs GammaAll_proofs
  F64Flocq F64Err_proofs F64Grid_proofs F64Euler_proofs F64QR_proofs F64QREx_proofs F64Term_proofs F64Lin_proofs F64Gamma_proofs F64GammaFun_proofs F64LnGammaSum_proofs.
Local Open Scope R_scope.

(** ** Sums of perturbed quantities *)
Lemma big21 : 1000000000 <= bpow radix2 1023.
Proof. apply Rle_trans with (bpow radix2 30); [simpl; lra|apply bpow_le; lia]. Qed.
Lemma rsum (p q : f64) P Q e f (sg : bool) : fgood p -> fgood q -> Rabs (fval p - P) <= e -> Rabs (fval q - Q) <= f -> e + f <= 1 -> Rabs P + Rabs Q <= 100000000 ->
  let v := if sg then add p q else sub p q in let V := if sg then P + Q else P - Q in
  fgood v /\ Rabs (fval v - V) <= e + f + uro * (Rabs P + Rabs Q + 1).
Proof.
  intros (Vp & Fp) (Vq & Fq) Hp Hq He HB. pose proof uro_b as U. pose proof big21 as B.
  assert (M : Rabs ((if sg then fval p + fval q else fval p - fval q) - (if sg then P + Q else P - Q)) <= e + f)
    by (revert Hp Hq; destruct sg; unfold Rabs; repeat destruct Rcase_abs; lra).
  assert (M2 : Rabs (if sg then fval p + fval q else fval p - fval q) <= Rabs P + Rabs Q + 1)
    by (revert M He; clear; destruct sg; unfold Rabs; repeat destruct Rcase_abs; lra).
  assert (M3 : fgood (if sg then add p q else sub p q) /\ Rabs (fval (if sg then add p q else sub p q) - (if sg then fval p + fval q else fval p - fval q)) <= uro * (Rabs P + Rabs Q + 1)).
  { destruct sg; [destruct (fadd_ok p q Vp Vq Fp Fq) as (V & F & E)|destruct (fsub_ok p q Vp Vq Fp Fq) as (V & F & E)]; try lra;
      (split; [split; assumption|eapply Rle_trans; [exact E|apply Rmult_le_compat_l; lra]]). }
  destruct M3 as (G & M3). cbv zeta. split; [exact G|]. revert M M3.
  generalize (if sg then P + Q else P - Q) (if sg then fval p + fval q else fval p - fval q) (fval (if sg then add p q else sub p q)). intros V W w M M3.
  replace (w - V) with ((w - W) + (W - V)) by ring. eapply Rle_trans; [apply Rabs_triang|lra].
Qed.
Lemma eta_uro : 0 <= eta64 <= / 1000000 * uro.
Proof.
  split; [unfold eta64; apply bpow_ge_0|]. eapply Rle_trans; [exact eta_small|]. pose proof uro_b. assert (uro * bpow radix2 (-1000) <= uro * 1); [|lra].
  apply Rmult_le_compat_l; [lra|]. change 1 with (bpow radix2 0). apply bpow_le. lia.
Qed.
Lemma rc : fnear (31 / 10 * uro) (gamma_r : f64) (10900511 / 1000000).
Proof.
  match goal with |- fnear _ ?t _ => let v := eval vm_compute in t in replace t with v by (vm_compute; reflexivity) end.
  split; [split; vm_compute; reflexivity|]; apply (near_le (102 / 100 * (3 * uro))); [|pose proof uro_b; lra].
  apply near_rel; [pose proof uro_b; lra|lra|]; rewrite fval_fin, uro_val; simpl; apply Rabs_le; lra.
Qed.
Lemma e_rng : 27 / 10 <= exp 1 <= 3.
Proof.
  split; [|apply exp_le_3]. replace 1 with (/ 128 * INR 128) at 1 by (simpl; lra). rewrite Rmult_comm, exp_nat.
  apply Rle_trans with ((1 + / 128) ^ 128); [simpl; lra|]. apply pow_incr. pose proof (exp_ineq1_le (/ 128)). lra.
Qed.
Lemma ln_ge_1 t : 3 <= t -> 1 <= ln t.
Proof. intros H. rewrite <- (ln_exp 1) at 1. apply ln_mono; [apply exp_pos|]. pose proof e_rng. lra. Qed.

Section Libm.
Variables (pw : f64 -> f64 -> f64) (E : EOps f64) (a : R).
Hypotheses (Ha : 0 <= a <= 1000) (HL : libm_acc a pw E) (HN : ln_acc a (@tln f64 E)) (HE : e_acc E).
#[local] Existing Instance E.
#[local] Instance PP : POps f64 := F64_pops pw.
Lemma e_near : fnear (16 / 10 * uro) (@te f64 E) (exp 1).
Proof.
  destruct HE as (G & H). split; [exact G|]. pose proof uro_b as U. pose proof e_rng as P3.
  apply (near_le (102 / 100 * (40 / 27 * uro))); [|lra]. apply near_rel; [lra|lra|]. eapply Rle_trans; [exact H|].
  assert (40 / 27 * uro * (27 / 10) <= 40 / 27 * uro * exp 1) by (apply Rmult_le_compat_l; lra). lra.
Qed.
Lemma ln_near (y : f64) c Y l : fnear c y Y -> 0 <= c <= / 100 -> Rabs (ln Y) <= l ->
  fgood (tln y) /\ Rabs (fval (tln y) - ln Y) <= c + a * uro * (l + c) + eta64.
Proof.
  intros (G & N) Hc Hl. destruct (near_pos _ _ _ N) as (Y0 & _). destruct (HN y G Y0) as (G1 & H1). split; [exact G1|]. pose proof (near_ln _ _ _ N) as D. pose proof (au_b a Ha) as A.
  assert (L : Rabs (ln (fval y)) <= l + c). { replace (ln (fval y)) with (ln Y + (ln (fval y) - ln Y)) by ring. eapply Rle_trans; [apply Rabs_triang|lra]. }
  assert (a * uro * Rabs (ln (fval y)) <= a * uro * (l + c)) by (apply Rmult_le_compat_l; lra).
  replace (fval (tln y) - ln Y) with ((fval (tln y) - ln (fval y)) + (ln (fval y) - ln Y)) by ring. eapply Rle_trans; [apply Rabs_triang|lra].
Qed.
(** The constant ln (2 sqrt (e / pi)). *)
Definition lgC : R := ln (2 * Rpower (exp 1 / PI) (1 / 2)).
Lemma const_near : fgood (tln (mul (lit 2 1) (tpow (div te tpi) (lit 1 2)))) /\ Rabs (fval (tln (mul (lit 2 1) (tpow (div te tpi) (lit 1 2)))) - lgC) <= (22 / 10 * a + 5) * uro /\ 0 <= lgC <= 1.
Proof.
  pose proof uro_b as U. pose proof (au_b a Ha) as A. pose proof e_rng as ER. pose proof PI_up as PU. pose proof big20 as B20. pose proof tiny40 as T40. pose proof eta_uro as ET.
  assert (Q : 27 / 32 <= exp 1 / PI <= 1).
  { split; [apply (Rmult_le_reg_r PI)|apply (Rmult_le_reg_r PI)]; try lra; unfold Rdiv; rewrite (Rmult_assoc (exp 1)), Rinv_l by lra; lra. }
  destruct (fnear_div _ _ _ _ _ _ e_near (pi_near pw E a HL)) as (Gq & Nq); [lra|lra|lra|lra|].
  destruct HL as (HP & _). set (q := div te tpi) in *.
  pose proof (near_range (16 / 10 * uro + 14 / 10 * uro + 103 / 100 * uro) _ _ ltac:(lra) Nq) as Rq. destruct (near_pos _ _ _ Nq) as (Q0 & _).
  pose proof (near_power _ 0 (Rabs (ln (fval q))) (1 / 2) (1 / 2) _ _ Nq ltac:(rewrite Rminus_diag_eq, Rabs_R0 by reflexivity; lra) ltac:(lra)) as Nh. rewrite Rmult_0_l, Rplus_0_l, (Rabs_pos_eq (1 / 2)) in Nh by lra.
  assert (SY : 1 / 2 <= Rpower (exp 1 / PI) (1 / 2) <= 1).
  { replace (1 / 2) with (/ 2) at 2 3 by field. rewrite Rpower_sqrt by lra. split.
    - replace (1 / 2) with (sqrt (1 / 4)) by (replace (1 / 4) with ((1 / 2) * (1 / 2)) by field; apply sqrt_square; lra). apply sqrt_le_1_alt. lra.
    - apply Rle_trans with (sqrt 1); [apply sqrt_le_1_alt; lra|rewrite sqrt_1; lra]. }
  pose proof (near_range (1 / 2 * (16 / 10 * uro + 14 / 10 * uro + 103 / 100 * uro)) _ _ ltac:(lra) Nh) as R2.
  destruct num12 as (Gh & Eh). destruct (HP q (lit 1 2) Gq Gh Q0) as (Gr & Er).
  { rewrite Eh. replace (/ 2) with (1 / 2) by field. split; [apply Rle_trans with (bpow radix2 (-2)); [apply bpow_le; lia|change (bpow radix2 (-2)) with (/ 4); lra]|apply Rle_trans with (bpow radix2 3); [change (bpow radix2 3) with 8; lra|apply bpow_le; lia]]. }
  rewrite Eh in Er. replace (/ 2) with (1 / 2) in Er by field.
  assert (Np : fnear (102 / 100 * (a * uro) + 1 / 2 * (16 / 10 * uro + 14 / 10 * uro + 103 / 100 * uro)) (tpow q (lit 1 2)) (Rpower (exp 1 / PI) (1 / 2))).
  { split; [exact Gr|]. eapply near_trans; [eapply (acc_near a Ha); [|exact Er]; lra|exact Nh]. }
  assert (N2 : fnear 0 (lit 2 1) 2) by (split; [exact (proj1 num2)|rewrite (proj2 num2); apply near_refl; lra]).
  pose proof (fnear_mul _ _ _ _ _ _ N2 Np ltac:(lra) ltac:(lra) ltac:(lra) ltac:(lra)) as NM.
  assert (LC : 0 <= lgC <= 1).
  { unfold lgC. split; [rewrite <- ln_1; apply ln_mono; lra|]. apply Rle_trans with (ln (exp 1)); [apply ln_mono; lra|rewrite ln_exp; lra]. }
  destruct (ln_near _ _ _ 1 NM) as (G & H); [lra|rewrite Rabs_pos_eq; unfold lgC in LC; lra|]. split; [exact G|]. split; [|exact LC]. eapply Rle_trans; [exact H|].
  match goal with |- ?c + a * uro * (1 + ?c) + _ <= _ => assert (X : a * uro * (1 + c) <= a * uro * (101 / 100)) by (apply Rmult_le_compat_l; lra) end. lra.
Qed.
(** The last product. *)
Definition lgG (y : R) : R := ln ((y + 10900511 / 1000000) / exp 1).
Lemma lgG_rng y : 0 <= y -> 1 <= lgG y <= ln (y + 11 + / 2).
Proof.
  intros H. pose proof e_rng as ER. assert (I : / 3 <= / exp 1 <= / (27 / 10)) by (split; apply Rinv_le_contravar; lra). unfold lgG, Rdiv at 1. split.
  - apply ln_ge_1. apply Rle_trans with ((y + 10900511 / 1000000) * / 3); [lra|apply Rmult_le_compat_l; lra].
  - apply ln_mono; [apply Rmult_lt_0_compat; lra|]. apply Rle_trans with ((y + 10900511 / 1000000) * 1); [apply Rmult_le_compat_l; lra|lra].
Qed.
Lemma ln_20 t : 0 < t -> t <= 2000000 -> ln t <= 20.
Proof.
  intros H0 H. rewrite <- (ln_exp 20). apply ln_mono; [exact H0|]. replace 20 with (INR 80 * (1 / 4)) by (simpl; lra). rewrite exp_nat.
  apply Rle_trans with ((5 / 4) ^ 80); [simpl; lra|]. apply pow_incr. pose proof (exp_ineq1_le (1 / 4)). lra.
Qed.
Lemma last_near (v : f64) y : fgood v -> 0 <= y <= 1000000 -> Rabs (fval v - y) <= uro * y ->
  let r := mul v (tln (div (add v gamma_r) te)) in fgood r /\ Rabs (fval r - y * lgG y) <= (10 + 11 / 10 * a) * uro * (y * lgG y) + eta64.
Proof.
  intros Gv Hy Dv. cbv zeta. pose proof uro_b as U. pose proof (au_b a Ha) as A. pose proof e_rng as ER. pose proof big21 as B21. pose proof tiny40 as T40. pose proof eta_uro as ET. pose proof big20 as B20.
  assert (UY : 0 <= uro * y <= / 1000000) by (split; [apply Rmult_le_pos; lra|assert (uro * y <= / 1000000000000000 * 1000000) by (apply Rmult_le_compat; lra); lra]).
  assert (Rv : y - uro * y <= fval v <= y + uro * y) by (revert Dv; unfold Rabs; destruct Rcase_abs; lra).
  destruct rc as (Gr & Nr). pose proof (rel_near (31 / 10 * uro) _ _ ltac:(lra) Nr) as Dr. destruct Gv as (Vv & Fv), Gr as (Vr & Fr).
  set (r := gamma_r : f64) in *. set (R0 := 10900511 / 1000000) in *. assert (HR0 : R0 = 10900511 / 1000000) by reflexivity. clearbody R0 r.
  assert (Rr : R0 - 32 / 10 * uro * R0 <= fval r <= R0 + 32 / 10 * uro * R0) by (revert Dr; unfold Rabs; assert (0 <= uro * R0) by (apply Rmult_le_pos; lra); destruct Rcase_abs; lra).
  assert (UR : 0 <= uro * R0 <= / 1000000) by (rewrite HR0; lra).
  assert (Vy0 : 0 <= fval v). { assert (uro * y <= 1 * y) by (apply Rmult_le_compat_r; lra). lra. }
  destruct (fadd_ok v r Vv Vr Fv Fr) as (Vs & Fs & Es). { rewrite Rabs_pos_eq; lra. }
  rewrite (Rabs_pos_eq (fval v + fval r)) in Es by lra.
  assert (Ns : fnear (44 / 10 * uro) (add v r) (y + R0)).
  { split; [split; assumption|]. apply (near_le (102 / 100 * (43 / 10 * uro))); [|lra]. apply near_rel; [lra|lra|].
    replace (fval (add v r) - (y + R0)) with ((fval (add v r) - (fval v + fval r)) + ((fval v - y) + (fval r - R0))) by ring.
    eapply Rle_trans; [apply Rabs_triang|]. eapply Rle_trans; [apply Rplus_le_compat_l, Rabs_triang|].
    assert (uro * (fval v + fval r) <= uro * (y + R0 + / 10000)) by (apply Rmult_le_compat_l; lra). assert (uro * 10 <= uro * R0) by (apply Rmult_le_compat_l; lra). lra. }
  assert (I : / 3 <= / exp 1 <= / (27 / 10)) by (split; apply Rinv_le_contravar; lra).
  assert (QR : 3 <= (y + R0) / exp 1 <= 1000000).
  { unfold Rdiv. split; [apply Rle_trans with ((y + R0) * / 3); [lra|apply Rmult_le_compat_l; lra]|apply Rle_trans with ((y + R0) * / (27 / 10)); [apply Rmult_le_compat_l; lra|lra]]. }
  pose proof (fnear_div _ _ _ _ _ _ Ns e_near ltac:(lra) ltac:(lra) ltac:(lra) ltac:(lra)) as Nq.
  pose proof (lgG_rng y (proj1 Hy)) as GR. unfold lgG in GR |- *. rewrite <- HR0 in GR |- *. set (G := ln ((y + R0) / exp 1)) in *.
  assert (G20 : G <= 20) by (apply ln_20; lra).
  destruct (ln_near _ _ _ G Nq) as (Gg & Hg); [lra|rewrite Rabs_pos_eq; fold G; lra|]. fold G in Hg. set (g := tln (div (add v r) te)) in *. destruct Gg as (Vg & Fg).
  match type of Hg with _ <= ?c + a * uro * (G + ?c) + _ => assert (X : a * uro * (G + c) <= a * uro * (101 / 100 * G)) by (apply Rmult_le_compat_l; lra) end.
  assert (UG : uro * 1 <= uro * G) by (apply Rmult_le_compat_l; lra).
  assert (Hg2 : Rabs (fval g - G) <= (72 / 10 + 101 / 100 * a) * (uro * G)) by lra. clear Hg X.
  assert (K : 0 <= (72 / 10 + 101 / 100 * a) * uro <= / 10000) by lra.
  assert (Ub : uro * G <= / 1000000) by (assert (uro * G <= / 1000000000000000 * 20) by (apply Rmult_le_compat; lra); lra).
  assert (Kg : (72 / 10 + 101 / 100 * a) * (uro * G) <= / 10000 * G). { replace ((72 / 10 + 101 / 100 * a) * (uro * G)) with ((72 / 10 + 101 / 100 * a) * uro * G) by ring. apply Rmult_le_compat_r; lra. }
  assert (Rg : G - / 10000 * G <= fval g <= G + / 10000 * G) by (revert Hg2; unfold Rabs; destruct Rcase_abs; lra).
  assert (YG : 0 <= y * G <= 1000000 * 20) by (split; [apply Rmult_le_pos; lra|apply Rmult_le_compat; lra]).
  assert (UYG : 0 <= uro * (y * G)) by (apply Rmult_le_pos; lra). assert (AYG : 0 <= a * uro * (y * G)) by (apply Rmult_le_pos; lra).
  assert (P : Rabs (fval v * fval g - y * G) <= (83 / 10 + 103 / 100 * a) * (uro * (y * G))).
  { replace (fval v * fval g - y * G) with ((fval v - y) * fval g + y * (fval g - G)) by ring. eapply Rle_trans; [apply Rabs_triang|]. rewrite !Rabs_mult.
    rewrite (Rabs_pos_eq (fval g)), (Rabs_pos_eq y) by lra.
    assert (Rabs (fval v - y) * fval g <= uro * y * (10001 / 10000 * G)) by (apply Rmult_le_compat; [apply Rabs_pos|lra|exact Dv|lra]).
    assert (y * Rabs (fval g - G) <= y * ((72 / 10 + 101 / 100 * a) * (uro * G))) by (apply Rmult_le_compat_l; lra). lra. }
  assert (S1 : (83 / 10 + 103 / 100 * a) * (uro * (y * G)) <= / 1000 * (y * G)). { replace ((83 / 10 + 103 / 100 * a) * (uro * (y * G))) with ((83 / 10 + 103 / 100 * a) * uro * (y * G)) by ring. apply Rmult_le_compat_r; lra. }
  assert (P0 : 0 <= fval v * fval g) by (apply Rmult_le_pos; lra).
  assert (P2 : fval v * fval g <= 1001 / 1000 * (y * G)) by (revert P; unfold Rabs; destruct Rcase_abs; lra).
  destruct (fmul_ok v g Vv Vg Fv Fg) as (Vm & Fm & Em); [rewrite Rabs_pos_eq; lra|]. rewrite (Rabs_pos_eq (fval v * fval g)) in Em by lra.
  split; [split; assumption|]. assert (uro * (fval v * fval g) <= uro * (1001 / 1000 * (y * G))) by (apply Rmult_le_compat_l; lra).
  replace (fval (mul v g) - y * G) with ((fval (mul v g) - fval v * fval g) + (fval v * fval g - y * G)) by ring. eapply Rle_trans; [apply Rabs_triang|]. lra.
Qed.
(** The logarithm of the sum. *)
Lemma ln_S z : / 2 <= z -> Rabs (ln (lg_S z)) <= 21.
Proof.
  intros H. destruct (lg_size z H) as ((A & B) & _). apply Rabs_le. split.
  - replace (-21) with (- (21)) by ring. rewrite <- (ln_exp (- (21))). apply ln_mono; [apply exp_pos|]. eapply Rle_trans; [|exact A]. rewrite exp_Ropp. apply Rinv_le_contravar; [lra|].
    replace 21 with (INR 84 * (1 / 4)) by (simpl; lra). rewrite exp_nat. apply Rle_trans with ((127 / 100) ^ 84); [simpl; lra|]. apply pow_incr. split; [lra|].
    replace (1 / 4) with (1 / 8 + 1 / 8) by field. rewrite exp_plus. pose proof (exp_ineq1_le (1 / 8)). 
    replace (1/8) with (1/16 + 1/16) by field. rewrite exp_plus. pose proof (exp_ineq1_le (1 / 16)). apply Rle_trans with (((1 + 1/16) * (1+1/16)) * ((1 + 1/16) * (1 + 1/16))); [lra|]. repeat (apply Rmult_le_compat; try lra).
  - apply Rle_trans with (ln 2000000); [apply ln_mono; lra|]. pose proof (ln_20 2000000 ltac:(lra) ltac:(lra)). lra.
Qed.
Lemma lnS_near (d : Z -> f64) z : / 2 <= z <= 1000000 -> (forall i, (1 <= i <= 10)%Z -> fnear (42 / 10 * uro) (d i) (z + IZR (i - 1))) ->
  fgood (tln (dk_sum d 1 gamma_dk gamma_dk0)) /\ Rabs (fval (tln (dk_sum d 1 gamma_dk gamma_dk0)) - ln (lg_S z)) <= (96001 + 22 * a) * uro.
Proof.
  intros Hz Hd. pose proof uro_b as U. pose proof (au_b a Ha) as A. pose proof eta_uro as ET. destruct (ln_near _ _ _ 21 (dk_f64 d z Hz Hd)) as (G & H); [lra|apply ln_S; lra|]. split; [exact G|]. eapply Rle_trans; [exact H|].
  assert (a * uro * (21 + 96000 * uro) <= a * uro * 22) by (apply Rmult_le_compat_l; lra). lra.
Qed.
(** ** Arguments from 1/2 on *)
Lemma small_int i : (1 <= i <= 10)%Z -> fgood (of_int i : f64) /\ fval (of_int i : f64) = IZR i /\ 1 <= IZR i <= 10.
Proof.
  intros H. change (of_int i) with (int_as_f64 i). destruct (Int_proofs.int_as_f64_ok i) as (V & F & Ev); [cbn; lia|]. split; [split; assumption|]. split; [exact Ev|]. split; apply IZR_le; lia.
Qed.
Lemma den_hi (x : f64) i : fgood x -> / 2 <= fval x <= 1000000 -> (1 <= i <= 10)%Z -> fnear (42 / 10 * uro) (sub (add x (of_int i)) one) (fval x + IZR (i - 1)).
Proof.
  intros (Vx & Fx) Hx Hi. destruct (small_int i Hi) as ((Vi & Fi) & Ei & Ri). destruct num1 as ((V1 & F1) & E1). pose proof uro_b as U. pose proof big21 as B.
  rewrite minus_IZR. set (k := IZR i) in *.
  destruct (fadd_ok x (of_int i) Vx Vi Fx Fi) as (Va & Fa & Ea). { rewrite Ei, Rabs_pos_eq; lra. } rewrite Ei, (Rabs_pos_eq (fval x + k)) in Ea by lra.
  assert (UX : 0 <= uro * (fval x + k) <= / 1000) by (split; [apply Rmult_le_pos; lra|assert (uro * (fval x + k) <= / 1000000000000000 * 1000010) by (apply Rmult_le_compat; lra); lra]).
  set (s := add x (of_int i)) in *. assert (Rs : fval x + k - uro * (fval x + k) <= fval s <= fval x + k + uro * (fval x + k)) by (revert Ea; unfold Rabs; destruct Rcase_abs; lra).
  destruct (fsub_ok s one Va V1 Fa F1) as (Vd & Fd & Ed). { rewrite E1, Rabs_pos_eq; lra. } rewrite E1, (Rabs_pos_eq (fval s - 1)) in Ed by lra.
  split; [split; assumption|]. apply (near_le (102 / 100 * (41 / 10 * uro))); [|lra]. apply near_rel; [lra|lra|].
  replace (fval (sub s one) - (fval x + (k - 1))) with ((fval (sub s one) - (fval s - 1)) + (fval s - (fval x + k))) by ring. eapply Rle_trans; [apply Rabs_triang|].
  assert (uro * (fval s - 1) <= uro * (fval x + k - 1 + / 1000)) by (apply Rmult_le_compat_l; lra).
  assert (uro * (fval x + k) <= uro * (3 * (fval x + (k - 1)))) by (apply Rmult_le_compat_l; lra).
  assert (uro * (/ 2) <= uro * (fval x + (k - 1))) by (apply Rmult_le_compat_l; lra). lra.
Qed.
Lemma sln_hi_R z : 1 / 2 <= z -> sln_gamma z = ln (lg_S z) + lgC + (z - 1 / 2) * lgG (z - 1 / 2).
Proof.
  intros Hz. transitivity (ln (lg_S z) + ln (lit 2 1 * R_pow (exp 1 / PI) (1 / 2)) + (z - 1 / 2) * ln ((z - 1 / 2 + gamma_r) / exp 1)).
  { unfold sln_gamma. rb. rewrite !lit_half'. rops. repeat rcase; try lra. reflexivity. }
  unfold lgC, lgG, gamma_r. rewrite !lit_R. replace (2 / 1) with 2 by field. rewrite R_pow_pos; [reflexivity|]. apply Rdiv_lt_0_compat; [apply exp_pos|apply PI_RGT_0].
Qed.
Lemma ln_gamma_hi (x : f64) : fgood x -> / 2 <= fval x <= 1000000 ->
  fgood (sln_gamma x) /\ Rabs (fval (sln_gamma x) - sln_gamma (fval x)) <= (97000 + 40 * a + (12 + 2 * a) * (fval x * ln (fval x + 11))) * uro.
Proof.
  intros Gx Hx. pose proof uro_b as U. pose proof (au_b a Ha) as A. pose proof eta_uro as ET. pose proof big21 as B. pose proof Gx as (Vx & Fx). destruct num12 as ((Vh & Fh) & Eh).
  set (X := fval x) in *. set (y := X - 1 / 2). assert (Hy : 0 <= y <= 1000000) by (unfold y; lra).
  assert (EF : sln_gamma x = add (add (tln (dk_sum (fun i => sub (add x (of_int i)) one) 1 gamma_dk gamma_dk0)) (tln (mul (lit 2 1) (tpow (div te tpi) (lit 1 2)))))
    (mul (sub x (lit 1 2)) (tln (div (add (sub x (lit 1 2)) gamma_r) te)))).
  { unfold sln_gamma. rewrite (fltb_val x (lit 1 2) Vx Vh Fx Fh), Eh. fold X. rewrite Rlt_bool_false by lra. reflexivity. }
  rewrite EF, (sln_hi_R X) by lra. fold y.
  destruct (lnS_near (fun i => sub (add x (of_int i)) one) X Hx (fun i Hi => den_hi x i Gx Hx Hi)) as (G1 & H1). destruct const_near as (G2 & H2 & LC).
  destruct (fsub_ok x (lit 1 2) Vx Vh Fx Fh) as (Vy & Fy & Ey). { rewrite Eh. fold X. apply Rabs_le. lra. }
  rewrite Eh in Ey. fold X in Ey. replace (X - / 2) with y in Ey by (unfold y; lra). rewrite (Rabs_pos_eq y) in Ey by lra.
  destruct (last_near (sub x (lit 1 2)) y (conj Vy Fy) Hy Ey) as (G3 & H3). pose proof (ln_S X ltac:(lra)) as LS. pose proof (lgG_rng y (proj1 Hy)) as GR.
  set (t1 := tln (dk_sum _ 1 gamma_dk gamma_dk0)) in *. set (t2 := tln (mul (lit 2 1) _)) in *. set (t3 := mul (sub x (lit 1 2)) _) in *.
  assert (G20 : ln (y + 11 + / 2) <= 20) by (apply ln_20; lra). set (P := y * lgG y) in *.
  assert (HP : 0 <= P <= 1000000 * 20) by (unfold P; split; [apply Rmult_le_pos; lra|apply Rmult_le_compat; lra]).
  assert (PW : P <= X * ln (X + 11)).
  { unfold P. replace (X + 11) with (y + 11 + 1 / 2) by (unfold y; ring). replace (1 / 2) with (/ 2) at 1 by field. apply Rmult_le_compat; unfold y in *; lra. }
  assert (Q1 : (96001 + 22 * a) * uro <= / 10000) by lra. assert (Q2 : (22 / 10 * a + 5) * uro <= / 10000) by lra.
  destruct (rsum t1 t2 (ln (lg_S X)) lgC _ _ true G1 G2 H1 H2) as (G4 & H4); [lra|rewrite (Rabs_pos_eq lgC); lra|]. cbv zeta iota in G4, H4.
  assert (UP : 0 <= uro * P) by (apply Rmult_le_pos; lra). assert (AP : 0 <= a * uro * P) by (apply Rmult_le_pos; lra).
  assert (UP2 : uro * P <= / 1000000) by (assert (uro * P <= / 1000000000000000 * (1000000 * 20)) by (apply Rmult_le_compat; lra); lra).
  assert (AP2 : a * uro * P <= / 10000) by (assert (a * uro * P <= / 1000000000000 * (1000000 * 20)) by (apply Rmult_le_compat; lra); lra).
  rewrite (Rabs_pos_eq lgC) in H4 by lra.
  assert (H5 : Rabs (fval (add t1 t2) - (ln (lg_S X) + lgC)) <= (96030 + 25 * a) * uro) by (assert (uro * (Rabs (ln (lg_S X)) + lgC + 1) <= uro * (21 + 1 + 1)) by (apply Rmult_le_compat_l; lra); lra).
  assert (L22 : Rabs (ln (lg_S X) + lgC) <= 22) by (eapply Rle_trans; [apply Rabs_triang|]; rewrite (Rabs_pos_eq lgC); lra).
  destruct (rsum (add t1 t2) t3 (ln (lg_S X) + lgC) P _ _ true G4 G3 H5 H3) as (G6 & H6); [lra|rewrite (Rabs_pos_eq P); lra|]. cbv zeta iota in G6, H6. rewrite (Rabs_pos_eq P) in H6 by lra.
  split; [exact G6|]. eapply Rle_trans; [exact H6|].
  assert (uro * (Rabs (ln (lg_S X) + lgC) + P + 1) <= uro * (22 + P + 1)) by (apply Rmult_le_compat_l; lra).
  assert ((12 + 2 * a) * uro * P <= (12 + 2 * a) * uro * (X * ln (X + 11))) by (apply Rmult_le_compat_l; lra). lra.
Qed.
(** ** Arguments below 1/2 *)
Lemma den_lo (x : f64) i : fgood x -> 0 < fval x <= / 2 -> (1 <= i <= 10)%Z -> fnear (42 / 10 * uro) (sub (of_int i) x) (1 - fval x + IZR (i - 1)).
Proof.
  intros (Vx & Fx) Hx Hi. destruct (small_int i Hi) as ((Vi & Fi) & Ei & Ri). pose proof uro_b as U. pose proof big21 as B.
  rewrite minus_IZR. set (k := IZR i) in *. destruct (fsub_ok (of_int i) x Vi Vx Fi Fx) as (Va & Fa & Ea). { rewrite Ei, Rabs_pos_eq; lra. } rewrite Ei, (Rabs_pos_eq (k - fval x)) in Ea by lra.
  split; [split; assumption|]. apply (near_le (102 / 100 * (4 * uro))); [|lra]. apply near_rel; [lra|lra|]. replace (1 - fval x + (k - 1)) with (k - fval x) by ring. 
  assert (0 <= uro * (k - fval x)) by (apply Rmult_le_pos; lra). lra.
Qed.
Lemma sin_near (z : f64) : fgood z -> bpow radix2 (-600) <= fval z <= / 2 ->
  fnear (102 / 100 * (a * uro) + 80 / 10 * uro) (tsin (mul tpi z)) (sin (PI * fval z)) /\ fval z <= sin (PI * fval z) <= 1.
Proof.
  intros Gz Hx. pose proof uro_b as U. pose proof (au_b a Ha) as A. pose proof PI_up as PU. pose proof (bpow_gt_0 radix2 (-600)) as B600. set (x := fval z) in *.
  set (X := PI * x). assert (X0 : 0 < X <= 16 / 10) by (unfold X; split; [apply Rmult_lt_0_compat; lra|apply Rle_trans with (315 / 100 * (/ 2)); [apply Rmult_le_compat; lra|lra]]).
  assert (Nz : fnear 0 z x) by (split; [exact Gz|apply near_refl; lra]).
  assert (XL : bpow radix2 (-599) <= X).
  { change (-599)%Z with (1 + -600)%Z. rewrite bpow_plus. change (bpow radix2 1) with 2. unfold X. apply Rmult_le_compat; lra. }
  pose proof big20 as B20.
  assert (Ny : fnear (348 / 100 * uro) (mul tpi z) X).
  { eapply fnear_le; [apply (fnear_mul _ _ _ _ _ _ (pi_near pw E a HL) Nz); [lra|lra|lra|]|lra]. fold X. split; [eapply Rle_trans; [|exact XL]; apply bpow_le; lia|lra]. }
  destruct Ny as (Gy & Ny). pose proof (rel_near (348 / 100 * uro) _ _ ltac:(lra) Ny) as Dy. pose proof (near_range (348 / 100 * uro) _ _ ltac:(lra) Ny) as Ry. set (y := mul tpi z) in *.
  pose proof (sin_lower X X0) as SX. destruct HL as (_ & _ & HS & _). destruct (HS y Gy) as (Gs & Es).
  { split; [|lra]. apply Rle_trans with (/ 2 * bpow radix2 (-599)); [|lra]. change (-599)%Z with (1 + -600)%Z. rewrite bpow_plus. change (bpow radix2 1) with 2.
    apply Rle_trans with (bpow radix2 (-600)); [apply bpow_le; lia|lra]. }
  assert (Ns0 : near (80 / 10 * uro) (sin (fval y)) (sin X)).
  { apply (near_le (102 / 100 * (78 / 10 * uro))); [|lra]. apply near_rel; [lra|lra|]. eapply Rle_trans; [apply sin_lip|]. eapply Rle_trans; [exact Dy|].
    assert (uro * (46 / 100 * X) <= uro * sin X) by (apply Rmult_le_compat_l; lra). assert (0 <= uro * X) by (apply Rmult_le_pos; lra). lra. }
  pose proof (near_pos _ _ _ Ns0) as (Sy0 & SX0).
  split; [split; [exact Gs|]; eapply near_trans; [eapply (acc_near a Ha); [|exact Es]; exact Sy0|exact Ns0]|].
  split; [|apply SIN_bound]. assert (3 * x <= X) by (unfold X; apply Rmult_le_compat_r; lra). lra.
Qed.
Lemma sln_lo_R x : 0 < x < 1 / 2 -> sln_gamma x = ln PI - ln (sin (PI * x)) - ln (lg_S (1 - x)) - lgC - (1 / 2 - x) * lgG (1 / 2 - x).
Proof.
  intros Hx. transitivity (ln PI - ln (sin (PI * x)) - sln_gamma (1 - x)).
  { unfold sln_gamma. rb. rewrite !lit_half'. rops. repeat rcase; try lra.
    assert (Q : dk_sum (fun i => IZR i - x) 1 gamma_dk gamma_dk0 = dk_sum (fun i => 1 - x + IZR i - 1) 1 gamma_dk gamma_dk0) by (apply dk_sum_ext; intros i; ring).
    rewrite Q. replace (1 - x - 1 / 2) with (1 / 2 - x) by field. ring. }
  rewrite sln_hi_R by lra. replace (1 - x - 1 / 2) with (1 / 2 - x) by field. ring.
Qed.
Lemma ln_gamma_lo (x : f64) : fgood x -> bpow radix2 (-600) <= fval x < / 2 ->
  fgood (sln_gamma x) /\ Rabs (fval (sln_gamma x) - sln_gamma (fval x)) <= (97000 + 40 * a + (12 + 2 * a) * - ln (fval x)) * uro.
Proof.
  intros Gx Hx. pose proof uro_b as U. pose proof (au_b a Ha) as A. pose proof eta_uro as ET. pose proof Gx as (Vx & Fx). destruct num12 as ((Vh & Fh) & Eh). pose proof (bpow_gt_0 radix2 (-600)) as B600.
  pose proof (sin_near x Gx ltac:(lra)) as (NS & SR). pose proof (fun i Hi => den_lo x i Gx ltac:(lra) Hi) as DL.
  set (X := fval x) in *. set (y := 1 / 2 - X). assert (Hy : 0 <= y <= 1 / 2) by (unfold y; lra).
  assert (EF : sln_gamma x = sub (sub (sub (sub (tln tpi) (tln (tsin (mul tpi x)))) (tln (dk_sum (fun i => sub (of_int i) x) 1 gamma_dk gamma_dk0))) (tln (mul (lit 2 1) (tpow (div te tpi) (lit 1 2)))))
    (mul (sub (lit 1 2) x) (tln (div (add (sub (lit 1 2) x) gamma_r) te)))).
  { unfold sln_gamma. rewrite (fltb_val x (lit 1 2) Vx Vh Fx Fh), Eh. fold X. rewrite Rlt_bool_true by lra. reflexivity. }
  rewrite EF, (sln_lo_R X) by lra. fold y. pose proof PI_up as PU. pose proof big21 as B.
  assert (LP : 0 <= ln PI <= 2).
  { split; [rewrite <- ln_1; apply ln_mono; lra|]. rewrite <- (ln_exp 2). apply ln_mono; [lra|]. replace 2 with (1 + 1) by ring. rewrite exp_plus. pose proof e_rng. apply Rle_trans with (2 * 2); [lra|apply Rmult_le_compat; lra]. }
  destruct (ln_near _ _ _ 2 (pi_near pw E a HL)) as (G0 & H0); [lra|rewrite Rabs_pos_eq; lra|].
  assert (H0' : Rabs (fval (tln tpi) - ln PI) <= (2 + 3 * a) * uro) by (assert (a * uro * (2 + 14 / 10 * uro) <= a * uro * 3) by (apply Rmult_le_compat_l; lra); lra). clear H0.
  set (L := - ln X). assert (SL : 0 <= - ln (sin (PI * X)) <= L).
  { unfold L. pose proof (ln_mono X (sin (PI * X)) ltac:(lra) ltac:(lra)). pose proof (ln_mono (sin (PI * X)) 1 ltac:(lra) ltac:(lra)) as L1. rewrite ln_1 in L1. lra. }
  assert (L600 : L <= 1000).
  { unfold L. pose proof (ln_mono _ X (bpow_gt_0 radix2 (-600)) ltac:(lra)) as Q. rewrite F64Libm_proofs.ln_bpow in Q. pose proof (ln_mono 1 2 ltac:(lra) ltac:(lra)) as Q0. rewrite ln_1 in Q0.
    assert (Q2 : ln 2 <= 1). { rewrite <- (ln_exp 1). apply ln_mono; [lra|]. pose proof e_rng. lra. } lra. }
  assert (AS : Rabs (ln (sin (PI * X))) <= L) by (rewrite Rabs_left1; lra).
  destruct (ln_near _ _ _ L NS) as (G1 & H1); [lra|exact AS|].
  assert (AL : 0 <= a * uro * L) by (apply Rmult_le_pos; lra). assert (UL : 0 <= uro * L) by (apply Rmult_le_pos; lra).
  assert (AL2 : a * uro * L <= / 1000000) by (assert (a * uro * L <= / 1000000000000 * 1000) by (apply Rmult_le_compat; lra); lra).
  assert (UL2 : uro * L <= / 1000000) by (assert (uro * L <= / 1000000000000000 * 1000) by (apply Rmult_le_compat; lra); lra).
  assert (H1' : Rabs (fval (tln (tsin (mul tpi x))) - ln (sin (PI * X))) <= (9 + 3 * a + a * L) * uro).
  { match type of H1 with _ <= ?c + a * uro * (L + ?c) + _ => assert (a * uro * (L + c) <= a * uro * (L + 1)) by (apply Rmult_le_compat_l; lra) end. lra. } clear H1.
  destruct (lnS_near (fun i => sub (of_int i) x) (1 - X) ltac:(lra) DL) as (G2 & H2). destruct const_near as (G3 & H3 & LC).
  destruct (fsub_ok (lit 1 2) x Vh Vx Fh Fx) as (Vy & Fy & Ey). { rewrite Eh. fold X. apply Rabs_le. lra. }
  rewrite Eh in Ey. fold X in Ey. replace (/ 2 - X) with y in Ey by (unfold y; lra). rewrite (Rabs_pos_eq y) in Ey by lra.
  destruct (last_near (sub (lit 1 2) x) y (conj Vy Fy) ltac:(lra) Ey) as (G4 & H4). pose proof (ln_S (1 - X) ltac:(lra)) as LS. pose proof (lgG_rng y (proj1 Hy)) as GR.
  set (t0 := tln tpi) in *. set (t1 := tln (tsin _)) in *. set (t2 := tln (dk_sum _ 1 gamma_dk gamma_dk0)) in *. set (t3 := tln (mul (lit 2 1) _)) in *. set (t4 := mul (sub (lit 1 2) x) _) in *.
  assert (G6 : ln (y + 11 + / 2) <= 6) by (apply ln_le_6; lra). set (P := y * lgG y) in *.
  assert (HP : 0 <= P <= 1 / 2 * 6) by (unfold P; split; [apply Rmult_le_pos; lra|apply Rmult_le_compat; lra]).
  set (SN := ln (sin (PI * X))) in *. set (LL := ln (lg_S (1 - X))) in *.
  destruct (rsum t0 t1 (ln PI) SN _ _ false G0 G1 H0' H1') as (I1 & J1); [lra|rewrite (Rabs_pos_eq (ln PI)); lra|]. cbv zeta iota in I1, J1. rewrite (Rabs_pos_eq (ln PI)) in J1 by lra.
  assert (K1 : Rabs (fval (sub t0 t1) - (ln PI - SN)) <= (14 + 6 * a + (1 + a) * L) * uro) by (assert (uro * (ln PI + Rabs SN + 1) <= uro * (2 + L + 1)) by (apply Rmult_le_compat_l; lra); lra).
  assert (B1 : Rabs (ln PI - SN) <= 2 + L) by (rewrite Rabs_pos_eq; lra).
  destruct (rsum (sub t0 t1) t2 (ln PI - SN) LL _ _ false I1 G2 K1 H2) as (I2 & J2); [lra|lra|]. cbv zeta iota in I2, J2.
  assert (K2 : Rabs (fval (sub (sub t0 t1) t2) - (ln PI - SN - LL)) <= (96039 + 28 * a + (2 + a) * L) * uro) by (assert (uro * (Rabs (ln PI - SN) + Rabs LL + 1) <= uro * (2 + L + 21 + 1)) by (apply Rmult_le_compat_l; lra); lra).
  assert (B2 : Rabs (ln PI - SN - LL) <= 23 + L) by (unfold Rminus at 1; eapply Rle_trans; [apply Rabs_triang|]; rewrite Rabs_Ropp; lra).
  destruct (rsum (sub (sub t0 t1) t2) t3 (ln PI - SN - LL) lgC _ _ false I2 G3 K2 H3) as (I3 & J3); [lra|rewrite (Rabs_pos_eq lgC); lra|]. cbv zeta iota in I3, J3. rewrite (Rabs_pos_eq lgC) in J3 by lra.
  assert (K3 : Rabs (fval (sub (sub (sub t0 t1) t2) t3) - (ln PI - SN - LL - lgC)) <= (96069 + 31 * a + (3 + a) * L) * uro) by (assert (uro * (Rabs (ln PI - SN - LL) + lgC + 1) <= uro * (23 + L + 1 + 1)) by (apply Rmult_le_compat_l; lra); lra).
  assert (B3 : Rabs (ln PI - SN - LL - lgC) <= 24 + L) by (unfold Rminus at 1; eapply Rle_trans; [apply Rabs_triang|]; rewrite Rabs_Ropp, (Rabs_pos_eq lgC); lra).
  assert (K4 : Rabs (fval t4 - P) <= (31 + 4 * a) * uro) by (assert ((10 + 11 / 10 * a) * uro * P <= (10 + 11 / 10 * a) * uro * 3) by (apply Rmult_le_compat_l; lra); lra).
  destruct (rsum (sub (sub (sub t0 t1) t2) t3) t4 (ln PI - SN - LL - lgC) P _ _ false I3 G4 K3 K4) as (I4 & J4); [lra|rewrite (Rabs_pos_eq P); lra|]. cbv zeta iota in I4, J4. rewrite (Rabs_pos_eq P) in J4 by lra.
  split; [exact I4|]. eapply Rle_trans; [exact J4|]. fold L.
  assert (uro * (Rabs (ln PI - SN - LL - lgC) + P + 1) <= uro * (24 + L + 3 + 1)) by (apply Rmult_le_compat_l; lra). lra.
Qed.
(** ** The whole function *)
Theorem ln_gamma_f64 (x : f64) g : fgood x -> bpow radix2 (-600) <= fval x <= 1000000 -> is_gamma (fval x) g ->
  fgood (sln_gamma x) /\ Rabs (fval (sln_gamma x) - ln g) <= 4 / 100000000000000000 + (97000 + 40 * a + (12 + 2 * a) * lg_scale (fval x)) * uro.
Proof.
  intros Gx Hx Hg. pose proof (bpow_gt_0 radix2 (-600)) as B. pose proof uro_b as U. pose proof (au_b a Ha) as A.
  assert (Eg : euler_gamma (fval x) g) by (apply is_gamma_euler; [lra|exact Hg]).
  pose proof (sln_gamma_accuracy_pos (fval x) g ltac:(lra) Eg) as T.
  assert (LA : 0 <= ln (fval x + 11)) by (pose proof (ln_ge_1 (fval x + 11) ltac:(lra)); lra). assert (XL : 0 <= fval x * ln (fval x + 11)) by (apply Rmult_le_pos; lra).
  assert (M : fgood (sln_gamma x) /\ Rabs (fval (sln_gamma x) - sln_gamma (fval x)) <= (97000 + 40 * a + (12 + 2 * a) * lg_scale (fval x)) * uro).
  { unfold lg_scale. pose proof (Rabs_pos (ln (fval x))) as LP. destruct (Rlt_le_dec (fval x) (/ 2)) as [Lo|Hi].
    - destruct (ln_gamma_lo x Gx ltac:(lra)) as (G & H). split; [exact G|]. eapply Rle_trans; [exact H|]. apply Rmult_le_compat_r; [lra|]. apply Rplus_le_compat_l. apply Rmult_le_compat_l; [lra|].
      pose proof (Rle_abs (- ln (fval x))) as Q. rewrite Rabs_Ropp in Q. lra.
    - destruct (ln_gamma_hi x Gx ltac:(lra)) as (G & H). split; [exact G|]. eapply Rle_trans; [exact H|]. apply Rmult_le_compat_r; [lra|]. apply Rplus_le_compat_l. apply Rmult_le_compat_l; lra. }
  destruct M as (G & M). split; [exact G|].
  replace (fval (sln_gamma x) - ln g) with ((fval (sln_gamma x) - sln_gamma (fval x)) + (sln_gamma (fval x) - ln g)) by ring. eapply Rle_trans; [apply Rabs_triang|lra].
Qed.
End Libm.
