(** Rounding errors of the normal, log-normal and raised cosine densities in binary64. *)
From Coq Require Import Arith Lia List Bool ZArith Reals Lra Psatz SpecFloat.
From Flocq Require Import Core IEEE754.BinarySingleNaN.
From Verif Require Import Outcome Scalar RealOps Elem_model Int_model Ode_model Complex_model Special_model Stat_model Stat_spec F64_spec F64Cplx_spec F64Gamma_spec F64Density_spec F64Normal_spec
  F64Flocq F64Err_proofs F64Grid_proofs F64Euler_proofs F64Lin_proofs F64QR_proofs F64Libm_proofs F64Var_proofs F64Gamma_proofs F64GammaFun_proofs F64Density_proofs.
Local Open Scope R_scope.

Lemma numm12 : fgood (lit (-1) 2) /\ fval (lit (-1) 2) = - / 2. Proof. num_tac. Qed.

Section Libm.
Variables (pw : f64 -> f64 -> f64) (E : EOps f64) (a : R).
Hypotheses (Ha : 0 <= a <= 1000) (HL : libm_acc a pw E) (HS : pow_square a pw).
#[local] Existing Instance E.
#[local] Instance PN : POps f64 := F64_pops pw.
#[local] Notation au := (102 / 100 * (a * uro)).

(** The square of a computed number. *)
Lemma square_err (q : f64) D d : fgood q -> Rabs (fval q - D) <= d -> Rabs D + d <= bpow radix2 500 ->
  fgood (tpow q (lit 2 1)) /\ Rabs (fval (tpow q (lit 2 1)) - D * D) <= a * uro * (D * D) + (1 + a * uro) * (2 * Rabs D * d + d * d) + eta64.
Proof.
  intros G H B. assert (Q : Rabs (fval q) <= Rabs D + d). { replace (fval q) with (D + (fval q - D)) by ring. eapply Rle_trans; [apply Rabs_triang|]. lra. }
  destruct (HS q G ltac:(lra)) as (Gs & Es). split; [exact Gs|]. pose proof (au_b a Ha) as A.
  assert (D2 : Rabs (fval q * fval q - D * D) <= 2 * Rabs D * d + d * d).
  { replace (fval q * fval q - D * D) with (2 * D * (fval q - D) + (fval q - D) * (fval q - D)) by ring. eapply Rle_trans; [apply Rabs_triang|]. rewrite !Rabs_mult, (Rabs_pos_eq 2) by lra.
    apply Rplus_le_compat; [|apply Rmult_le_compat; try apply Rabs_pos; exact H]. apply Rmult_le_compat_l; [pose proof (Rabs_pos D); lra|exact H]. }
  assert (Q2 : fval q * fval q <= D * D + (2 * Rabs D * d + d * d)) by (revert D2; unfold Rabs at 1; destruct Rcase_abs; lra).
  change (tpow q (lit 2 1)) with (pw q (lit 2 1)). replace (fval (pw q (lit 2 1)) - D * D) with ((fval (pw q (lit 2 1)) - fval q * fval q) + (fval q * fval q - D * D)) by ring.
  eapply Rle_trans; [apply Rabs_triang|]. assert (a * uro * (fval q * fval q) <= a * uro * (D * D + (2 * Rabs D * d + d * d))) by (apply Rmult_le_compat_l; lra). lra.
Qed.

(** The normalising factor. *)
Lemma root_near (v : f64) : fgood v -> bpow radix2 (-500) <= fval v <= bpow radix2 500 ->
  fnear (au + 18 / 10 * uro) (tsqrt (mul (mul v (lit 2 1)) tpi)) (sqrt (2 * PI * fval v)) /\ bpow radix2 (-250) <= sqrt (2 * PI * fval v) <= bpow radix2 252.
Proof.
  intros G H. pose proof uro_b as U. pose proof (au_b a Ha) as A. pose proof PI_up as PU. destruct num2 as (G2 & E2). pose proof (bpow_gt_0 radix2 (-500)) as B5.
  assert (N2 : fnear 0 (lit 2 1) 2) by (rewrite <- E2; apply exact_near; [exact G2|lra]).
  assert (R1 : bpow radix2 (-999) <= fval v * 2 <= bpow radix2 501).
  { split; [apply Rle_trans with (bpow radix2 (-500)); [apply bpow_le; lia|lra]|]. change 501%Z with (500 + 1)%Z. rewrite bpow_plus. change (bpow radix2 1) with 2. lra. }
  pose proof (fnear_mul _ _ _ _ _ _ (exact_near v G ltac:(lra)) N2 ltac:(lra) ltac:(lra) ltac:(lra) (conj (proj1 R1) (Rle_trans _ _ _ (proj2 R1) (bpow_le radix2 501 1022 ltac:(lia))))) as P1.
  assert (R2 : bpow radix2 (-500) <= fval v * 2 * PI <= bpow radix2 503).
  { split; [apply Rle_trans with (fval v * 1); [lra|rewrite Rmult_assoc; apply Rmult_le_compat_l; lra]|]. apply Rle_trans with (fval v * 2 * 4); [apply Rmult_le_compat_l; lra|].
    change 503%Z with (500 + 3)%Z. rewrite bpow_plus. change (bpow radix2 3) with 8. lra. }
  pose proof (fnear_mul _ _ _ _ _ _ P1 (pi_near pw E a HL) ltac:(lra) ltac:(lra) ltac:(lra) (conj (Rle_trans _ _ _ (bpow_le radix2 (-999) (-500) ltac:(lia)) (proj1 R2)) (Rle_trans _ _ _ (proj2 R2) (bpow_le radix2 503 1022 ltac:(lia))))) as P2.
  replace (2 * PI * fval v) with (fval v * 2 * PI) by ring. set (Y := fval v * 2 * PI) in *.
  assert (SQ : bpow radix2 (-250) <= sqrt Y <= bpow radix2 252).
  { assert (SB : forall e, sqrt (bpow radix2 (e + e)) = bpow radix2 e) by (intro e; rewrite bpow_plus; apply sqrt_square, bpow_ge_0). split.
    - rewrite <- SB. apply sqrt_le_1_alt. eapply Rle_trans; [|exact (proj1 R2)]. apply bpow_le. lia.
    - rewrite <- SB. apply sqrt_le_1_alt. eapply Rle_trans; [exact (proj2 R2)|]. apply bpow_le. lia. }
  split; [|exact SQ]. destruct num12 as (Ghf & Ehf). assert (ES : Rpower Y (/ 2) = sqrt Y) by (apply Rpower_sqrt; lra).
  assert (SS : safe (Rpower Y (/ 2))) by (rewrite ES; split; [eapply Rle_trans; [|exact (proj1 SQ)]|eapply Rle_trans; [exact (proj2 SQ)|]]; apply bpow_le; lia).
  rewrite <- ES. assert (Hf : S754_finite false 4503599627370496 (-53) = lit 1 2) by (vm_compute; reflexivity).
  change (tsqrt (mul (mul v (lit 2 1)) tpi)) with (pw (mul (mul v (lit 2 1)) tpi) (S754_finite false 4503599627370496 (-53))). rewrite Hf.
  assert (H0 : Rabs (fval (lit 1 2 : f64) - / 2) <= 0) by (rewrite Ehf, Rminus_eq_0, Rabs_R0; lra).
  eapply fnear_le; [apply (pow_fnear pw E a Ha HL (mul (mul v (lit 2 1)) tpi) (lit 1 2) _ Y (/ 2) 0 P2 Ghf H0); [lra|lra| |exact SS]|]; rewrite (Rabs_pos_eq (/ 2)) by lra; lra.
Qed.

(** ** The normal distribution *)
Theorem normal_pdf_f64 (mu v x : f64) : fgood mu -> fgood v -> fgood x -> bpow radix2 (-500) <= fval v <= bpow radix2 500 ->
  let D := (fval x - fval mu) / fval v in Rabs D <= 37 -> safe (coded_gauss (fval mu) (fval v) (fval x)) ->
  fgood (normal_pdf (mkNormal mu v) x) /\
  Rabs (fval (normal_pdf (mkNormal mu v) x) - coded_gauss (fval mu) (fval v) (fval x)) <= (3 * a + 5 + (2 * a + 6) * (D * D / 2)) * uro * coded_gauss (fval mu) (fval v) (fval x).
Proof.
  intros Gm Gv Gx Hv D HD S. pose proof uro_b as U. pose proof (au_b a Ha) as A. pose proof eta_small as ET. pose proof (bpow_gt_0 radix2 (-500)) as B5. pose proof Gm as (Vm & Fm). pose proof Gv as (Vv & Fv). pose proof Gx as (Vx & Fx).
  assert (EX : fval x - fval mu = D * fval v) by (unfold D; field; lra). pose proof (Rabs_pos D) as D0.
  assert (BX : Rabs (fval x - fval mu) <= bpow radix2 506).
  { rewrite EX, Rabs_mult, (Rabs_pos_eq (fval v)) by lra. change 506%Z with (6 + 500)%Z. rewrite bpow_plus. apply Rmult_le_compat; try lra. change (bpow radix2 6) with 64. lra. }
  destruct (fsub_ok x mu Vx Vm Fx Fm) as (Vt & Ft & Et). { eapply Rle_trans; [exact BX|apply bpow_le; lia]. }
  set (t := sub x mu : f64) in *.
  assert (Dt : Rabs (fval t / fval v - D) <= uro * Rabs D).
  { replace (fval t / fval v - D) with ((fval t - (fval x - fval mu)) * / fval v) by (unfold D; field; lra). rewrite Rabs_mult, (Rabs_pos_eq (/ fval v)) by (left; apply Rinv_0_lt_compat; lra).
    apply Rle_trans with (uro * Rabs (fval x - fval mu) * / fval v); [apply Rmult_le_compat_r; [left; apply Rinv_0_lt_compat; lra|exact Et]|]. rewrite EX, Rabs_mult, (Rabs_pos_eq (fval v)) by lra. right. field. lra. }
  assert (UD : 0 <= uro * Rabs D <= / 1000000000000000 * 37) by (split; [apply Rmult_le_pos; lra|apply Rmult_le_compat; lra]).
  assert (At : Rabs (fval t / fval v) <= Rabs D + uro * Rabs D). { replace (fval t / fval v) with (D + (fval t / fval v - D)) by ring. eapply Rle_trans; [apply Rabs_triang|]. lra. }
  destruct (fdiv_ok t v Vt Vv Ft Fv) as (Vq & Fq & Eq); [lra|pose proof big23; lra|]. set (q := div t v : f64) in *.
  assert (U2 : uro * (Rabs D + uro * Rabs D) <= uro * Rabs D + / 1000000 * (uro * Rabs D)). { assert (uro * (uro * Rabs D) <= / 1000000 * (uro * Rabs D)) by (apply Rmult_le_compat_r; lra). lra. }
  assert (Dq : Rabs (fval q - D) <= 201 / 100 * (uro * Rabs D) + eta64).
  { replace (fval q - D) with ((fval q - fval t / fval v) + (fval t / fval v - D)) by ring. eapply Rle_trans; [apply Rabs_triang|]. assert (uro * Rabs (fval t / fval v) <= uro * (Rabs D + uro * Rabs D)) by (apply Rmult_le_compat_l; lra). lra. }
  set (d := 201 / 100 * (uro * Rabs D) + eta64) in *. assert (d0 : 0 <= d <= 80 * uro). { unfold d. assert (uro * Rabs D <= uro * 37) by (apply Rmult_le_compat_l; lra). lra. }
  assert (B500 : 1000 <= bpow radix2 500). { apply Rle_trans with (bpow radix2 10); [change (bpow radix2 10) with 1024; lra|apply bpow_le; lia]. }
  destruct (square_err q D d (conj Vq Fq) Dq ltac:(lra)) as (Gs & Es). set (s := tpow q (lit 2 1)) in *.
  assert (DD : Rabs D * Rabs D = D * D) by (rewrite <- Rabs_mult; apply Rabs_pos_eq, Rle_0_sqr). pose proof (Rle_0_sqr D : 0 <= D * D) as D2.
  assert (D2b : D * D <= 37 * 37) by (rewrite <- DD; apply Rmult_le_compat; lra).
  assert (e1 : 2 * Rabs D * d <= 402 / 100 * (uro * (D * D)) + 74 * eta64). { unfold d. rewrite <- DD. assert (Rabs D * eta64 <= 37 * eta64) by (apply Rmult_le_compat_r; lra). lra. }
  assert (e2 : d * d <= / 10000 * uro). { apply Rle_trans with ((80 * / 1000000000000000) * (80 * uro)); [apply Rmult_le_compat; lra|lra]. }
  assert (UDD : 0 <= uro * (D * D) <= / 1000000000000000 * (37 * 37)) by (split; [apply Rmult_le_pos; lra|apply Rmult_le_compat; lra]).
  assert (AUD : 0 <= a * uro * (D * D) <= / 1000000000000 * (37 * 37)) by (split; [apply Rmult_le_pos; lra|apply Rmult_le_compat; lra]).
  assert (e3 : 0 <= 2 * Rabs D * d + d * d) by (apply Rplus_le_le_0_compat; repeat apply Rmult_le_pos; lra).
  assert (e4 : a * uro * (2 * Rabs D * d + d * d) <= / 1000000000000 * (2 * Rabs D * d + d * d)) by (apply Rmult_le_compat_r; lra).
  assert (Es' : Rabs (fval s - D * D) <= a * uro * (D * D) + 403 / 100 * (uro * (D * D)) + / 1000 * uro) by lra.
  assert (Rs : Rabs (fval s) <= D * D + 1). { replace (fval s) with (D * D + (fval s - D * D)) by ring. eapply Rle_trans; [apply Rabs_triang|]. rewrite (Rabs_pos_eq (D * D)) by exact D2. lra. }
  destruct numm12 as ((Vh & Fh) & Eh). destruct Gs as (Vs & Fs).
  destruct (fmul_ok (lit (-1) 2) s Vh Vs Fh Fs) as (Vz & Fz & Ez). { rewrite Rabs_mult, Eh, Rabs_Ropp, (Rabs_pos_eq (/ 2)) by lra. pose proof big23. lra. }
  rewrite Rabs_mult, Eh, Rabs_Ropp, (Rabs_pos_eq (/ 2)) in Ez by lra. set (z := mul (lit (-1) 2) s : f64) in *.
  assert (Us : uro * (/ 2 * Rabs (fval s)) <= uro * (D * D) / 2 + / 1000 * uro).
  { apply Rle_trans with (uro * (/ 2 * (D * D + (a * uro * (D * D) + 403 / 100 * (uro * (D * D)) + / 1000 * uro)))).
    - apply Rmult_le_compat_l; [lra|]. apply Rmult_le_compat_l; [lra|]. replace (fval s) with (D * D + (fval s - D * D)) by ring. eapply Rle_trans; [apply Rabs_triang|]. rewrite (Rabs_pos_eq (D * D)) by exact D2. lra.
    - assert (uro * (a * uro * (D * D) + 403 / 100 * (uro * (D * D)) + / 1000 * uro) <= uro * (/ 100000)) by (apply Rmult_le_compat_l; lra). lra. }
  assert (Dz : Rabs (fval z - - (D * D / 2)) <= a * uro * (D * D) / 2 + 252 / 100 * (uro * (D * D)) + / 100 * uro).
  { replace (fval z - - (D * D / 2)) with ((fval z - - / 2 * fval s) + - / 2 * (fval s - D * D)) by field. eapply Rle_trans; [apply Rabs_triang|]. rewrite Rabs_mult, Rabs_Ropp, (Rabs_pos_eq (/ 2)) by lra. lra. }
  pose proof (exp_fnear pw E a Ha HL z (- (D * D / 2)) _ (conj Vz Fz) Dz ltac:(lra) ltac:(rewrite Rabs_Ropp, Rabs_pos_eq; lra)) as NE.
  destruct (root_near v Gv Hv) as (NR & BR). destruct num1 as ((V1 & F1) & E1). assert (N1 : fnear 0 (one : f64) 1) by (split; [split; assumption|rewrite E1; apply near_refl; lra]).
  assert (R0 : 0 < sqrt (2 * PI * fval v)) by (pose proof (bpow_gt_0 radix2 (-250)); lra).
  assert (RI : bpow radix2 (-999) <= 1 / sqrt (2 * PI * fval v) <= bpow radix2 1022).
  { unfold Rdiv. rewrite Rmult_1_l. split.
    - apply Rle_trans with (bpow radix2 (- (252))); [apply bpow_le; lia|]. rewrite bpow_opp. apply Rinv_le_contravar; lra.
    - apply Rle_trans with (bpow radix2 (- (-250))); [|apply bpow_le; lia]. rewrite bpow_opp. apply Rinv_le_contravar; [apply bpow_gt_0|lra]. }
  pose proof (fnear_div _ _ _ _ _ _ N1 NR ltac:(lra) ltac:(lra) ltac:(lra) RI) as NF.
  assert (EQ : coded_gauss (fval mu) (fval v) (fval x) = 1 / sqrt (2 * PI * fval v) * exp (- (D * D / 2))) by (unfold coded_gauss; fold D; f_equal; unfold Rdiv; ring).
  rewrite EQ in *. pose proof (fnear_mul _ _ _ _ _ _ NF NE ltac:(lra) ltac:(lra) ltac:(lra) (safe_rng _ S)) as (Gr & Nr).
  change (normal_pdf (mkNormal mu v) x) with (mul (div one (tsqrt (mul (mul v (lit 2 1)) tpi))) (texp z)). split; [exact Gr|].
  eapply Rle_trans; [eapply rel_near; [|exact Nr]; lra|]. apply Rmult_le_compat_r; [left; exact (safe_pos _ S)|]. lra.
Qed.

(** ** The log-normal distribution *)
Theorem log_normal_pdf_f64 (mu s2 x : f64) : ln_acc a (@tln f64 E) -> fgood mu -> fgood s2 -> fgood x -> / 1024 <= fval s2 <= bpow radix2 500 -> bpow radix2 (-400) <= fval x <= bpow radix2 400 ->
  let D := ln (fval x) - fval mu in let Q := D * D / 2 / fval s2 in Q <= 690 -> safe (log_gauss (fval mu) (fval s2) (fval x)) ->
  fgood (log_normal_pdf (mkLogNormal mu s2) x) /\
  Rabs (fval (log_normal_pdf (mkLogNormal mu s2) x) - log_gauss (fval mu) (fval s2) (fval x))
    <= (3 * a + 8 + (2 * a + 5) * Q + 2 * a * (Rabs (ln (fval x)) * Rabs D / fval s2)) * uro * log_gauss (fval mu) (fval s2) (fval x).
Proof.
  intros HN Gm Gv Gx Hv Hx D Q HQ S. pose proof uro_b as U. pose proof (au_b a Ha) as A. pose proof eta_small as ET. pose proof (bpow_gt_0 radix2 (-400)) as B4. pose proof Gm as (Vm & Fm). pose proof Gv as (Vv & Fv). pose proof Gx as (Vx & Fx).
  set (i := / fval s2). assert (Hi : 0 < i <= 1024). { unfold i. split; [apply Rinv_0_lt_compat; lra|]. rewrite <- (Rinv_inv 1024). apply Rinv_le_contravar; lra. }
  assert (iv : fval s2 * i = 1) by (unfold i; field; lra). set (L := Rabs (ln (fval x))). assert (L0 : 0 <= L <= 1074) by (split; [apply Rabs_pos|apply ln_size; [exact Gx|lra]]).
  set (w := Rabs D). assert (w0 : 0 <= w) by apply Rabs_pos. assert (ww : w * w = D * D) by (unfold w; rewrite <- Rabs_mult; apply Rabs_pos_eq, Rle_0_sqr).
  assert (EQ : Q = w * w / 2 * i) by (unfold Q; rewrite ww; reflexivity). assert (ww2 : w * w = 2 * Q * fval s2) by (rewrite EQ; unfold i; field; lra).
  assert (Q0 : 0 <= Q) by (rewrite EQ; apply Rmult_le_pos; [|lra]; apply Rmult_le_pos; [now apply Rmult_le_pos|lra]).
  assert (wb : w <= bpow radix2 256).
  { destruct (Rle_lt_dec w (bpow radix2 256)) as [H|H]; [exact H|]. exfalso. assert (bpow radix2 256 * bpow radix2 256 <= w * w) by (apply Rmult_le_compat; try apply bpow_ge_0; lra).
    assert (w * w <= 1380 * bpow radix2 500) by (rewrite ww2; apply Rmult_le_compat; lra). rewrite <- bpow_plus in *. change (256 + 256)%Z with (12 + 500)%Z in *. rewrite bpow_plus in *. change (bpow radix2 12) with 4096 in *.
    pose proof (bpow_gt_0 radix2 500). lra. }
  destruct (HN x Gx ltac:(lra)) as ((Vl & Fl) & El). fold L in El. set (K := a * uro * L) in *.
  assert (K0 : 0 <= K <= / 1000000000000 * 1074) by (split; [apply Rmult_le_pos; lra|apply Rmult_le_compat; lra]).
  assert (Al : Rabs (fval (tln x : f64) - fval mu) <= w + K + eta64). { replace (fval (tln x : f64) - fval mu) with (D + (fval (tln x : f64) - ln (fval x))) by (unfold D; ring). eapply Rle_trans; [apply Rabs_triang|]. fold w. lra. }
  assert (B256 : bpow radix2 256 + 1 <= bpow radix2 257). { change 257%Z with (256 + 1)%Z. rewrite bpow_plus. change (bpow radix2 1) with 2. assert (1 <= bpow radix2 256) by (change 1 with (bpow radix2 0); apply bpow_le; lia). lra. }
  assert (B257 : bpow radix2 257 <= bpow radix2 499) by (apply bpow_le; lia). assert (B500 : bpow radix2 499 * 2 = bpow radix2 500) by (change 500%Z with (499 + 1)%Z; rewrite bpow_plus; reflexivity).
  destruct (fsub_ok (tln x) mu Vl Vm Fl Fm) as (Vq & Fq & Eq). { apply Rle_trans with (bpow radix2 257); [lra|apply bpow_le; lia]. }
  set (q := sub (tln x) mu : f64) in *.
  assert (UK : uro * (w + K + eta64) <= uro * w + / 1000000 * K + / 1000000 * eta64). { assert (uro * K <= / 1000000 * K) by (apply Rmult_le_compat_r; lra). assert (uro * eta64 <= / 1000000 * eta64) by (apply Rmult_le_compat_r; lra). lra. }
  set (d := uro * w + 1001 / 1000 * K + 2 * eta64).
  assert (Dq : Rabs (fval q - D) <= d).
  { replace (fval q - D) with ((fval q - (fval (tln x : f64) - fval mu)) + (fval (tln x : f64) - ln (fval x))) by (unfold D; ring). eapply Rle_trans; [apply Rabs_triang|].
    assert (uro * Rabs (fval (tln x : f64) - fval mu) <= uro * (w + K + eta64)) by (apply Rmult_le_compat_l; lra). unfold d. lra. }
  assert (uw : 0 <= uro * w <= w) by (split; [apply Rmult_le_pos; lra|rewrite <- (Rmult_1_l w) at 2; apply Rmult_le_compat_r; lra]).
  assert (d0 : 0 <= d) by (unfold d; lra). assert (B1 : 1 <= bpow radix2 256) by (change 1 with (bpow radix2 0); apply bpow_le; lia).
  destruct (square_err q D d (conj Vq Fq) Dq) as (Gs & Es). { fold w. unfold d. lra. } fold w in Es. set (s := tpow q (lit 2 1)) in *. rewrite <- ww in Es.
  assert (Wi : 0 <= w * i <= 1024 + 2 * Q).
  { split; [apply Rmult_le_pos; lra|]. assert (w <= 1 + w * w) by (pose proof (Rle_0_sqr (w - 1)) as H; unfold Rsqr in H; lra). assert (w * i <= (1 + w * w) * i) by (apply Rmult_le_compat_r; lra). lra. }
  assert (t1 : w * d * i = 2 * uro * Q + 1001 / 1000 * K * (w * i) + 2 * eta64 * (w * i)) by (rewrite EQ; unfold d; field).
  assert (t2 : eta64 * (w * i) <= / 100 * uro). { apply Rle_trans with (eta64 * 2404); [apply Rmult_le_compat_l; lra|]. lra. }
  assert (KK : K * K <= 116 / 100000 * uro).
  { replace (K * K) with (uro * uro * ((a * a) * (L * L))) by (unfold K; ring). assert (0 <= a * a <= 1000 * 1000) by (split; [apply Rmult_le_pos; lra|apply Rmult_le_compat; lra]).
    assert (0 <= L * L <= 1074 * 1074) by (split; [apply Rmult_le_pos; lra|apply Rmult_le_compat; lra]). assert (0 <= (a * a) * (L * L) <= 1000 * 1000 * (1074 * 1074)) by (split; [apply Rmult_le_pos; lra|apply Rmult_le_compat; lra]).
    apply Rle_trans with (uro * / 1000000000000000 * (1000 * 1000 * (1074 * 1074))); [apply Rmult_le_compat; try lra; [apply Rmult_le_pos; lra|apply Rmult_le_compat_l; lra]|]. lra. }
  assert (KKi : K * K * i <= 12 / 10 * uro). { apply Rle_trans with (116 / 100000 * uro * 1024); [|lra]. apply Rmult_le_compat; try lra. apply Rmult_le_pos; lra. }
  assert (uQ : 0 <= uro * Q <= / 1000000000000000 * 690) by (split; [apply Rmult_le_pos; lra|apply Rmult_le_compat; lra]).
  assert (KW : 0 <= K * (w * i) <= / 1000000000000 * 1074 * 2404) by (split; [apply Rmult_le_pos; lra|apply Rmult_le_compat; lra]).
  assert (t3 : d * d * i <= / 1000 * (uro * Q) + / 1000 * (K * (w * i)) + 13 / 10 * uro).
  { replace (d * d * i) with (uro * (uro * (w * w / 2 * i)) * 2 + 1001 / 1000 * 2 * (uro * (K * (w * i))) + 4 * (uro * (eta64 * (w * i))) + (1001 / 1000) * (1001 / 1000) * (K * K * i) + 4 * (1001 / 1000) * (eta64 * (K * i)) + 4 * (eta64 * (eta64 * i))) by (unfold d; field).
    rewrite <- EQ. assert (uro * (uro * Q) <= / 1000000 * (uro * Q)) by (apply Rmult_le_compat_r; lra). assert (uro * (K * (w * i)) <= / 1000000 * (K * (w * i))) by (apply Rmult_le_compat_r; lra).
    assert (uro * (eta64 * (w * i)) <= uro * / 1000) by (apply Rmult_le_compat_l; lra). assert (K * i <= 2) by (apply Rle_trans with (/ 1000000000000 * 1074 * 1024); [apply Rmult_le_compat; lra|lra]).
    assert (eta64 * (K * i) <= eta64 * 2) by (apply Rmult_le_compat_l; lra). assert (eta64 * i <= 1) by (apply Rle_trans with (/ 1000000 * 1024); [apply Rmult_le_compat; lra|lra]). assert (eta64 * (eta64 * i) <= eta64 * 1) by (apply Rmult_le_compat_l; lra). lra. }
  assert (AQ : 0 <= a * uro * Q <= / 1000000000000 * 690) by (split; [apply Rmult_le_pos; lra|apply Rmult_le_compat; lra]).
  set (X := w * d * i + d * d * i / 2). assert (X0 : 0 <= X) by (unfold X; apply Rplus_le_le_0_compat; [repeat apply Rmult_le_pos; lra|]; apply Rmult_le_pos; [repeat apply Rmult_le_pos; lra|lra]).
  assert (AX : a * uro * X <= / 1000000000000 * X) by (apply Rmult_le_compat_r; lra).
  assert (Xb : X <= 2001 / 1000 * (uro * Q) + 1002 / 1000 * (K * (w * i)) + 7 / 10 * uro) by (unfold X; lra).
  assert (ei : eta64 * i <= / 100 * uro) by (apply Rle_trans with (eta64 * 1024); [apply Rmult_le_compat_l; lra|lra]).
  set (sg := a * uro * Q + 2002 / 1000 * (uro * Q) + 1003 / 1000 * (K * (w * i)) + 8 / 10 * uro). assert (sg0 : 0 <= sg <= / 100000) by (unfold sg; lra).
  assert (Ss : Rabs (fval s - w * w) / 2 * i <= sg).
  { apply Rle_trans with ((a * uro * (w * w) + (1 + a * uro) * (2 * w * d + d * d) + eta64) / 2 * i); [apply Rmult_le_compat_r; lra|].
    replace ((a * uro * (w * w) + (1 + a * uro) * (2 * w * d + d * d) + eta64) / 2 * i) with (a * uro * (w * w / 2 * i) + (X + a * uro * X) + eta64 * i / 2) by (unfold X; field). rewrite <- EQ. unfold sg. lra. }
  assert (Rs : Rabs (fval s) / 2 * i <= Q + sg).
  { apply Rle_trans with ((w * w + Rabs (fval s - w * w)) / 2 * i); [|rewrite EQ; lra]. apply Rmult_le_compat_r; [lra|]. apply Rmult_le_compat_r; [lra|].
    replace (fval s) with (w * w + (fval s - w * w)) at 1 by ring. eapply Rle_trans; [apply Rabs_triang|]. rewrite (Rabs_pos_eq (w * w)) by (apply Rmult_le_pos; lra). lra. }
  assert (Rs' : Rabs (fval s) <= 1400 * bpow radix2 500).
  { assert (Rabs (fval s) = Rabs (fval s) / 2 * i * 2 * fval s2) as -> by (unfold i; field; lra). apply Rmult_le_compat; try lra. apply Rmult_le_pos; [|lra]. apply Rmult_le_pos; [|lra]. pose proof (Rabs_pos (fval s)). lra. }
  destruct numm12 as ((Vh & Fh) & Eh). destruct Gs as (Vs & Fs).
  destruct (fmul_ok (lit (-1) 2) s Vh Vs Fh Fs) as (Vz & Fz & Ez).
  { rewrite Rabs_mult, Eh, Rabs_Ropp, (Rabs_pos_eq (/ 2)) by lra. apply Rle_trans with (bpow radix2 (10 + 500)); [rewrite bpow_plus; change (bpow radix2 10) with 1024; pose proof (bpow_gt_0 radix2 500); lra|apply bpow_le; lia]. }
  rewrite Rabs_mult, Eh, Rabs_Ropp, (Rabs_pos_eq (/ 2)) in Ez by lra. set (m := mul (lit (-1) 2) s : f64) in *.
  assert (Dm : Rabs (fval m / fval s2 - - Q) <= sg + (uro * (Q + sg) + / 100 * uro)).
  { replace (fval m / fval s2 - - Q) with ((fval m - - / 2 * fval s) * i + - ((fval s - w * w) / 2 * i)) by (rewrite EQ; unfold i; field; lra).
    eapply Rle_trans; [apply Rabs_triang|]. rewrite Rabs_Ropp. unfold Rdiv. rewrite !Rabs_mult, (Rabs_pos_eq i), (Rabs_pos_eq (/ 2)) by lra.
    assert (Rabs (fval m - - / 2 * fval s) * i <= (uro * (/ 2 * Rabs (fval s)) + eta64) * i) by (apply Rmult_le_compat_r; lra).
    assert (uro * (Rabs (fval s) / 2 * i) <= uro * (Q + sg)) by (apply Rmult_le_compat_l; lra). unfold Rdiv in *. lra. }
  assert (us : uro * sg <= / 1000000 * sg) by (apply Rmult_le_compat_r; lra).
  assert (Am : Rabs (fval m / fval s2) <= Q + / 1000). { replace (fval m / fval s2) with (- Q + (fval m / fval s2 - - Q)) by ring. eapply Rle_trans; [apply Rabs_triang|]. rewrite Rabs_Ropp, (Rabs_pos_eq Q) by exact Q0. lra. }
  destruct (fdiv_ok m s2 Vz Vv Fz Fv) as (Vr & Fr & Er); [lra|pose proof big23; lra|]. set (z := div m s2 : f64) in *.
  assert (um : uro * Rabs (fval m / fval s2) <= uro * (Q + / 1000)) by (apply Rmult_le_compat_l; lra).
  assert (Dz : Rabs (fval z - - Q) <= 101 / 100 * (a * uro * Q) + 403 / 100 * (uro * Q) + 1004 / 1000 * (K * (w * i)) + uro).
  { replace (fval z - - Q) with ((fval z - fval m / fval s2) + (fval m / fval s2 - - Q)) by ring. eapply Rle_trans; [apply Rabs_triang|]. unfold sg in *. lra. }
  pose proof (exp_fnear pw E a Ha HL z (- Q) _ (conj Vr Fr) Dz ltac:(lra) ltac:(rewrite Rabs_Ropp, Rabs_pos_eq; lra)) as NE.
  assert (Hv5 : bpow radix2 (-500) <= fval s2 <= bpow radix2 500). { split; [|lra]. apply Rle_trans with (/ 1024); [|lra]. change (/ 1024) with (bpow radix2 (-10)). apply bpow_le. lia. }
  destruct (root_near s2 Gv Hv5) as (NR & BR). destruct num1 as ((V1 & F1) & E1). assert (N1 : fnear 0 (one : f64) 1) by (split; [split; assumption|rewrite E1; apply near_refl; lra]).
  set (r := sqrt (2 * PI * fval s2)) in *. assert (R0 : 0 < r) by (pose proof (bpow_gt_0 radix2 (-250)); lra).
  assert (XR : bpow radix2 (-650) <= fval x * r <= bpow radix2 652).
  { change (-650)%Z with (-400 + -250)%Z. change 652%Z with (400 + 252)%Z. rewrite !bpow_plus. split; apply Rmult_le_compat; try apply bpow_ge_0; lra. }
  assert (XRs : bpow radix2 (-999) <= fval x * r <= bpow radix2 1022) by (split; [eapply Rle_trans; [|exact (proj1 XR)]|eapply Rle_trans; [exact (proj2 XR)|]]; apply bpow_le; lia).
  pose proof (fnear_mul _ _ _ _ _ _ (exact_near x Gx ltac:(lra)) NR ltac:(lra) ltac:(lra) ltac:(lra) XRs) as NX.
  assert (RI : bpow radix2 (-999) <= 1 / (fval x * r) <= bpow radix2 1022).
  { unfold Rdiv. rewrite Rmult_1_l. split.
    - apply Rle_trans with (bpow radix2 (- (652))); [apply bpow_le; lia|]. rewrite bpow_opp. apply Rinv_le_contravar; [pose proof (bpow_gt_0 radix2 (-650))|]; lra.
    - apply Rle_trans with (bpow radix2 (- (-650))); [|apply bpow_le; lia]. rewrite bpow_opp. apply Rinv_le_contravar; [apply bpow_gt_0|lra]. }
  pose proof (fnear_div _ _ _ _ _ _ N1 NX ltac:(lra) ltac:(lra) ltac:(lra) RI) as NF.
  assert (EF : log_gauss (fval mu) (fval s2) (fval x) = 1 / (fval x * r) * exp (- Q)) by (unfold log_gauss; fold D; fold Q; fold r; f_equal; unfold Rdiv; ring).
  rewrite EF in *. pose proof (fnear_mul _ _ _ _ _ _ NF NE ltac:(lra) ltac:(lra) ltac:(lra) (safe_rng _ S)) as (Gr & Nr).
  assert (EP : log_normal_pdf (mkLogNormal mu s2) x = mul (div one (mul x (tsqrt (mul (mul s2 (lit 2 1)) tpi)))) (texp z)). { unfold log_normal_pdf. rewrite (pos_ltb x Gx) by lra. reflexivity. }
  rewrite EP. split; [exact Gr|]. eapply Rle_trans; [eapply rel_near; [|exact Nr]; lra|]. apply Rmult_le_compat_r; [left; exact (safe_pos _ S)|].
  replace (L * w / fval s2) with (L * (w * i)) by (unfold i; field; lra). replace (K * (w * i)) with (a * uro * (L * (w * i))) in * by (unfold K; ring). lra.
Qed.

(** ** The raised cosine distribution *)
Lemma cos_lip u v : Rabs (cos u - cos v) <= Rabs (u - v).
Proof. rewrite !cos_sin. replace (u - v) with ((PI / 2 + u) - (PI / 2 + v)) by ring. apply sin_lip. Qed.
Theorem raised_pdf_f64 (mu s x : f64) : trig_acc a (@tcos f64 E) cos -> fgood mu -> fgood s -> fgood x -> Rabs (fval mu) <= bpow radix2 900 -> bpow radix2 (-500) <= fval s <= bpow radix2 500 ->
  Rabs (fval x - fval mu) <= fval s - 2 * uro * (Rabs (fval mu) + fval s) ->
  fgood (raised_pdf (mkRaised mu s) x) /\ Rabs (fval (raised_pdf (mkRaised mu s) x) - raised_density (fval mu) (fval s) (fval x)) <= (a + 25) * uro * / (2 * fval s).
Proof.
  intros HC Gm Gs Gx Bm Bs Bx. pose proof uro_b as U. pose proof (au_b a Ha) as A. pose proof eta_small as ET. pose proof (bpow_gt_0 radix2 (-500)) as B5. pose proof Gm as (Vm & Fm). pose proof Gs as (Vs & Fs). pose proof Gx as (Vx & Fx).
  pose proof PI_up as PU. destruct HL as (_ & _ & _ & (Vp & Fp) & Ep). set (S := fval s) in *. set (M := fval mu) in *. set (X := fval x) in *.
  assert (P5 : bpow radix2 500 <= bpow radix2 900) by (apply bpow_le; lia). assert (P9 : bpow radix2 900 * 4 <= bpow radix2 1023) by (change 4 with (bpow radix2 2); rewrite <- bpow_plus; apply bpow_le; lia).
  pose proof (Rabs_pos M) as M0. assert (UM : 0 <= uro * (Rabs M + S)) by (apply Rmult_le_pos; lra). assert (S1 : Rabs (X - M) <= S) by lra.
  assert (T1 : Rabs (M - S) <= Rabs M + S). { unfold Rminus. eapply Rle_trans; [apply Rabs_triang|]. rewrite Rabs_Ropp, (Rabs_pos_eq S); lra. }
  assert (T2 : Rabs (M + S) <= Rabs M + S). { eapply Rle_trans; [apply Rabs_triang|]. rewrite (Rabs_pos_eq S); lra. }
  destruct (fsub_ok mu s Vm Vs Fm Fs ltac:(fold M S; lra)) as (Vl & Fl & El). destruct (fadd_ok mu s Vm Vs Fm Fs ltac:(fold M S; lra)) as (Vu & Fu & Eu). fold M S in El, Eu.
  assert (UM1 : uro * Rabs (M - S) <= uro * (Rabs M + S)) by (apply Rmult_le_compat_l; lra). assert (UM2 : uro * Rabs (M + S) <= uro * (Rabs M + S)) by (apply Rmult_le_compat_l; lra).
  assert (UMp : 0 < uro * (Rabs M + S)) by (apply Rmult_lt_0_compat; lra).
  assert (X1 : - (S - 2 * uro * (Rabs M + S)) <= X - M <= S - 2 * uro * (Rabs M + S)) by (revert Bx; unfold Rabs at 1; destruct Rcase_abs; lra).
  assert (C1 : leb (sub mu s) x = true). { rewrite (fleb_val _ _ Vl Vx Fl Fx). apply Rle_bool_true. fold X. revert El. unfold Rabs at 1. destruct Rcase_abs; lra. }
  assert (C2 : ltb x (add mu s) = true). { rewrite (fltb_val _ _ Vx Vu Fx Fu). apply Rlt_bool_true. fold X. revert Eu. unfold Rabs at 1. destruct Rcase_abs; lra. }
  set (i := / S). assert (Hi : 0 < i <= bpow radix2 500). { unfold i. split; [apply Rinv_0_lt_compat; lra|]. change 500%Z with (- (-500))%Z. rewrite bpow_opp. apply Rinv_le_contravar; lra. }
  assert (Si : S * i = 1) by (unfold i; field; lra).
  assert (ei : eta64 * i <= / 1000 * uro /\ eta64 <= / 1000 * uro * i).
  { assert (EE : eta64 * bpow radix2 500 <= / 1000 * uro). { unfold eta64, uro. apply Rle_trans with (bpow radix2 (-10) * bpow radix2 (-53)); [rewrite <- !bpow_plus; apply bpow_le; lia|]. apply Rmult_le_compat_r; [apply bpow_ge_0|]. change (bpow radix2 (-10)) with (/ 1024). lra. }
    assert (E0 : 0 <= eta64) by lra. split; [apply Rle_trans with (eta64 * bpow radix2 500); [apply Rmult_le_compat_l; lra|exact EE]|].
    replace eta64 with (eta64 * S * i) by (rewrite Rmult_assoc, Si; ring). apply Rmult_le_compat_r; [lra|]. apply Rle_trans with (eta64 * bpow radix2 500); [apply Rmult_le_compat_l; lra|exact EE]. }
  destruct ei as (ei & ei').
  destruct (fsub_ok x mu Vx Vm Fx Fm ltac:(fold X M; lra)) as (Vt & Ft & Et). fold X M in Et. set (t := sub x mu : f64) in *.
  assert (Xi : Rabs (X - M) * i <= 1) by (rewrite <- Si; apply Rmult_le_compat_r; lra).
  assert (Dt : Rabs (fval t - (X - M)) * i <= uro). { apply Rle_trans with (uro * Rabs (X - M) * i); [apply Rmult_le_compat_r; lra|]. rewrite Rmult_assoc. rewrite <- (Rmult_1_r uro) at 2. apply Rmult_le_compat_l; lra. }
  assert (At0 : Rabs (fval t) <= Rabs (X - M) + Rabs (fval t - (X - M))). { replace (fval t) with ((X - M) + (fval t - (X - M))) at 1 by ring. apply Rabs_triang. }
  assert (At : Rabs (fval t) * i <= 1 + uro) by (assert (Rabs (fval t) * i <= (Rabs (X - M) + Rabs (fval t - (X - M))) * i) by (apply Rmult_le_compat_r; lra); lra).
  assert (At' : Rabs (fval t) <= 2 * S). { assert (Rabs (fval t) = Rabs (fval t) * i * S) as -> by (rewrite Rmult_assoc, (Rmult_comm i), Si; ring). apply Rmult_le_compat_r; lra. }
  assert (Pp : Rabs (fval (tpi : f64)) <= 5) by (revert Ep; unfold Rabs; repeat destruct Rcase_abs; lra).
  destruct (fmul_ok tpi t Vp Vt Fp Ft) as (Vq & Fq & Eq). { rewrite Rabs_mult. apply Rle_trans with (5 * (2 * S)); [apply Rmult_le_compat; try apply Rabs_pos; assumption|]. apply Rle_trans with (16 * bpow radix2 500); [lra|]. change 16 with (bpow radix2 4). rewrite <- bpow_plus. apply bpow_le. lia. }
  set (m := mul tpi t : f64) in *. rewrite Rabs_mult in Eq.
  assert (ptI : Rabs (fval (tpi : f64)) * Rabs (fval t) * i <= 501 / 100).
  { rewrite Rmult_assoc. apply Rle_trans with (5 * (1 + uro)); [apply Rmult_le_compat; try apply Rabs_pos; try lra; apply Rmult_le_pos; [apply Rabs_pos|lra]|lra]. }
  assert (Dm : Rabs (fval m / S - PI * (X - M) / S) <= 14 * uro).
  { replace (fval m / S - PI * (X - M) / S) with (((fval m - fval (tpi : f64) * fval t) + ((fval (tpi : f64) - PI) * fval t + PI * (fval t - (X - M)))) * i) by (unfold i; field; lra).
    rewrite Rabs_mult, (Rabs_pos_eq i) by lra. apply Rle_trans with ((uro * (Rabs (fval (tpi : f64)) * Rabs (fval t)) + eta64 + (4 * uro * Rabs (fval t) + 4 * Rabs (fval t - (X - M)))) * i).
    - apply Rmult_le_compat_r; [lra|]. eapply Rle_trans; [apply Rabs_triang|]. apply Rplus_le_compat; [exact Eq|]. eapply Rle_trans; [apply Rabs_triang|]. rewrite !Rabs_mult, (Rabs_pos_eq PI) by lra.
      apply Rplus_le_compat; apply Rmult_le_compat_r; try apply Rabs_pos; lra.
    - assert (uro * (Rabs (fval (tpi : f64)) * Rabs (fval t) * i) <= uro * (501 / 100)) by (apply Rmult_le_compat_l; lra). assert (uro * (Rabs (fval t) * i) <= uro * (1 + uro)) by (apply Rmult_le_compat_l; lra).
      assert (uro * uro <= uro * / 1000000) by (apply Rmult_le_compat_l; lra). lra. }
  assert (A0 : Rabs (PI * (X - M) / S) <= 4). { replace (PI * (X - M) / S) with (PI * ((X - M) * i)) by (unfold i; field; lra). rewrite !Rabs_mult, (Rabs_pos_eq PI), (Rabs_pos_eq i) by lra. apply Rle_trans with (PI * 1); [apply Rmult_le_compat_l|]; lra. }
  assert (Am : Rabs (fval m / S) <= 401 / 100). { replace (fval m / S) with (PI * (X - M) / S + (fval m / S - PI * (X - M) / S)) by ring. eapply Rle_trans; [apply Rabs_triang|]. lra. }
  destruct (fdiv_ok m s Vq Vs Fq Fs) as (Vy & Fy & Ey); fold S; [lra|pose proof big23; lra|]. fold S in Ey. set (y := div m s : f64) in *.
  assert (uy : uro * Rabs (fval m / S) <= uro * (401 / 100)) by (apply Rmult_le_compat_l; lra).
  destruct (HC y (conj Vy Fy)) as ((Vc & Fc) & Ec). set (c := tcos y : f64) in *. set (th := PI * (X - M) / S) in *.
  assert (Dc : Rabs (fval c - cos th) <= (a + 185 / 10) * uro).
  { replace (fval c - cos th) with ((fval c - cos (fval y)) + (cos (fval y) - cos th)) by ring. eapply Rle_trans; [apply Rabs_triang|]. pose proof (cos_lip (fval y) th) as CL.
    assert (Rabs (fval y - th) <= 182 / 10 * uro). { replace (fval y - th) with ((fval y - fval m / S) + (fval m / S - th)) by ring. eapply Rle_trans; [apply Rabs_triang|]. lra. } lra. }
  pose proof (COS_bound th) as CB. assert (Ac : Rabs (fval c) <= 1001 / 1000). { replace (fval c) with (cos th + (fval c - cos th)) by ring. eapply Rle_trans; [apply Rabs_triang|]. assert (Rabs (cos th) <= 1) by (apply Rabs_le; lra). lra. }
  destruct num1 as ((V1 & F1) & E1). assert (A1c : Rabs (1 + fval c) <= 2001 / 1000) by (eapply Rle_trans; [apply Rabs_triang|]; rewrite Rabs_R1; lra).
  destruct (fadd_ok one c V1 Vc F1 Fc) as (Vn & Fn & En). { rewrite E1. pose proof big23. lra. } rewrite E1 in En. set (n := add one c : f64) in *.
  assert (un : uro * Rabs (1 + fval c) <= uro * (2001 / 1000)) by (apply Rmult_le_compat_l; lra).
  assert (Dn : Rabs (fval n - (1 + cos th)) <= (a + 206 / 10) * uro). { replace (fval n - (1 + cos th)) with ((fval n - (1 + fval c)) + (fval c - cos th)) by ring. eapply Rle_trans; [apply Rabs_triang|]. lra. }
  assert (An : Rabs (fval n) <= 201 / 100). { replace (fval n) with ((1 + cos th) + (fval n - (1 + cos th))) by ring. eapply Rle_trans; [apply Rabs_triang|]. rewrite (Rabs_pos_eq (1 + cos th)) by lra. lra. }
  destruct num2 as (G2 & E2). assert (N2 : fnear 0 (lit 2 1) 2) by (rewrite <- E2; apply exact_near; [exact G2|lra]).
  assert (RD : bpow radix2 (-999) <= 2 * S <= bpow radix2 1022). { split; [apply Rle_trans with (bpow radix2 (-500)); [apply bpow_le; lia|lra]|]. apply Rle_trans with (bpow radix2 (1 + 500)); [rewrite bpow_plus; change (bpow radix2 1) with 2; lra|apply bpow_le; lia]. }
  destruct (fnear_mul _ _ _ _ _ _ N2 (exact_near s Gs ltac:(fold S; lra)) ltac:(lra) ltac:(lra) ltac:(lra) RD) as ((Vd & Fd) & Nd). fold S in Nd. set (dn := mul (lit 2 1) s : f64) in *.
  assert (Ni : near (0 + (0 + 0 + 103 / 100 * uro)) (1 / fval dn) (1 / (2 * S))) by (apply near_div; [apply near_refl; lra|exact Nd]). pose proof (rel_near (0 + (0 + 0 + 103 / 100 * uro)) _ _ ltac:(lra) Ni) as Di.
  replace (1 / (2 * S)) with (i / 2) in Di by (unfold i; field; lra). assert (dp : 0 < fval dn) by (destruct (near_range (0 + 0 + 103 / 100 * uro) _ _ ltac:(lra) Nd); lra).
  assert (Aq : Rabs (fval n / fval dn - (1 + cos th) * (i / 2)) <= (a + 228 / 10) * uro * (i / 2)).
  { replace (fval n / fval dn - (1 + cos th) * (i / 2)) with (fval n * (1 / fval dn - i / 2) + (fval n - (1 + cos th)) * (i / 2)) by (field; lra). eapply Rle_trans; [apply Rabs_triang|]. rewrite !Rabs_mult, (Rabs_pos_eq (i / 2)) by lra.
    assert (Rabs (fval n) * Rabs (1 / fval dn - i / 2) <= 201 / 100 * (102 / 100 * (0 + (0 + 0 + 103 / 100 * uro)) * (i / 2))) by (apply Rmult_le_compat; try apply Rabs_pos; assumption).
    assert (Rabs (fval n - (1 + cos th)) * (i / 2) <= (a + 206 / 10) * uro * (i / 2)) by (apply Rmult_le_compat_r; lra). assert (0 <= uro * i) by (apply Rmult_le_pos; lra). lra. }
  assert (Ab : Rabs (fval n / fval dn) <= 201 / 100 * (i / 2)).
  { replace (fval n / fval dn) with ((1 + cos th) * (i / 2) + (fval n / fval dn - (1 + cos th) * (i / 2))) by ring. eapply Rle_trans; [apply Rabs_triang|]. rewrite (Rabs_pos_eq ((1 + cos th) * (i / 2))) by (apply Rmult_le_pos; lra).
    assert ((1 + cos th) * (i / 2) <= 2 * (i / 2)) by (apply Rmult_le_compat_r; lra). assert ((a + 228 / 10) * uro * (i / 2) <= / 100 * (i / 2)) by (apply Rmult_le_compat_r; lra). lra. }
  destruct (fdiv_ok n dn Vn Vd Fn Fd) as (Vv & Fv & Ev); [lra| |]. { apply Rle_trans with (4 * bpow radix2 500); [lra|]. change 4 with (bpow radix2 2). rewrite <- bpow_plus. apply bpow_le. lia. }
  assert (EP : raised_pdf (mkRaised mu s) x = div n dn). { unfold raised_pdf. cbn [rc_mu rc_s]. rewrite C1, C2. reflexivity. }
  rewrite EP. split; [split; assumption|]. replace (raised_density M S X) with ((1 + cos th) * (i / 2)) by (unfold raised_density; fold th; unfold i; field; lra). replace (/ (2 * S)) with (i / 2) by (unfold i; field; lra).
  replace (fval (div n dn) - (1 + cos th) * (i / 2)) with ((fval (div n dn) - fval n / fval dn) + (fval n / fval dn - (1 + cos th) * (i / 2))) by ring. eapply Rle_trans; [apply Rabs_triang|].
  assert (uro * Rabs (fval n / fval dn) <= uro * (201 / 100 * (i / 2))) by (apply Rmult_le_compat_l; lra). assert (0 <= uro * i) by (apply Rmult_le_pos; lra). lra.
Qed.
Theorem raised_pdf_out (mu s x : f64) : fgood mu -> fgood s -> fgood x -> Rabs (fval mu) <= bpow radix2 900 -> 0 < fval s <= bpow radix2 900 ->
  fval s + 2 * uro * (Rabs (fval mu) + fval s) <= Rabs (fval x - fval mu) -> raised_pdf (mkRaised mu s) x = S754_zero false.
Proof.
  intros (Vm & Fm) (Vs & Fs) (Vx & Fx) Bm Bs Bx. pose proof uro_b as U. set (S := fval s) in *. set (M := fval mu) in *. set (X := fval x) in *.
  assert (P9 : bpow radix2 900 * 4 <= bpow radix2 1023) by (change 4 with (bpow radix2 2); rewrite <- bpow_plus; apply bpow_le; lia). pose proof (Rabs_pos M) as M0.
  assert (T1 : Rabs (M - S) <= Rabs M + S). { unfold Rminus. eapply Rle_trans; [apply Rabs_triang|]. rewrite Rabs_Ropp, (Rabs_pos_eq S); lra. }
  assert (T2 : Rabs (M + S) <= Rabs M + S). { eapply Rle_trans; [apply Rabs_triang|]. rewrite (Rabs_pos_eq S); lra. }
  destruct (fsub_ok mu s Vm Vs Fm Fs ltac:(fold M S; lra)) as (Vl & Fl & El). destruct (fadd_ok mu s Vm Vs Fm Fs ltac:(fold M S; lra)) as (Vu & Fu & Eu). fold M S in El, Eu.
  assert (UM1 : uro * Rabs (M - S) <= uro * (Rabs M + S)) by (apply Rmult_le_compat_l; lra). assert (UM2 : uro * Rabs (M + S) <= uro * (Rabs M + S)) by (apply Rmult_le_compat_l; lra).
  assert (UMp : 0 < uro * (Rabs M + S)) by (apply Rmult_lt_0_compat; lra). unfold raised_pdf. cbn [rc_mu rc_s].
  rewrite (fleb_val _ _ Vl Vx Fl Fx), (fltb_val _ _ Vx Vu Fx Fu). fold X.
  assert (X1 : X - M <= - (S + 2 * uro * (Rabs M + S)) \/ S + 2 * uro * (Rabs M + S) <= X - M) by (revert Bx; unfold Rabs at 2; destruct Rcase_abs; lra).
  destruct X1 as [X1|X1].
  - rewrite Rle_bool_false; [reflexivity|]. revert El. unfold Rabs at 1. destruct Rcase_abs; lra.
  - rewrite (Rlt_bool_false X); [now rewrite Bool.andb_false_r|]. revert Eu. unfold Rabs at 1. destruct Rcase_abs; lra.
Qed.
End Libm.

(** ** Correctly rounded functions meet the hypotheses *)
From Verif Require Import F64Cplx_proofs F64GammaEx_proofs F64DensityEx_proofs.
Definition square_pow (x y : f64) : f64 := if Req_EM_T (fval y) 2 then ofR (fval x * fval x) else exact_pow x y.
Lemma square_pow_libm : libm_acc 2 square_pow exact_eops.
Proof.
  destruct libm_acc_ex as ((HP & HR) & _). split; [|exact HR]. intros x y Gx Gy Hx H. destruct (HP x y Gx Gy Hx H) as (G & Er). unfold square_pow. destruct (Req_EM_T (fval y) 2) as [E2|_]; [|split; assumption].
  assert (ER : Rpower (fval x) (fval y) = fval x * fval x). { rewrite E2. replace 2 with (1 + 1) by ring. now rewrite Rpower_plus, Rpower_1. }
  rewrite ER in *. apply ofR_rel. split; [eapply Rle_trans; [|exact (proj1 H)]|eapply Rle_trans; [exact (proj2 H)|]]; apply bpow_le; lia.
Qed.
Lemma square_pow_square : pow_square 2 square_pow.
Proof.
  intros x G H. destruct num2 as (_ & E2). unfold square_pow. destruct (Req_EM_T (fval (lit 2 1)) 2) as [_|N]; [|contradiction]. pose proof (Rle_0_sqr (fval x) : 0 <= fval x * fval x) as S0. pose proof uro_b as U.
  destruct (ofR_err (fval x * fval x)) as (G1 & X). { rewrite Rabs_mult. apply Rle_trans with (bpow radix2 500 * bpow radix2 500); [apply Rmult_le_compat; try apply Rabs_pos; exact H|]. rewrite <- bpow_plus. apply bpow_le. lia. }
  split; [exact G1|]. rewrite (Rabs_pos_eq (fval x * fval x)) in X by exact S0. assert (0 <= uro * (fval x * fval x)) by (apply Rmult_le_pos; lra). lra.
Qed.
Lemma ln_acc_two : ln_acc 2 (@tln f64 exact_eops).
Proof. intros x G H. destruct (ln_acc_ex x G H) as (G1 & X). split; [exact G1|]. pose proof uro_b as U. assert (0 <= uro * Rabs (ln (fval x))) by (apply Rmult_le_pos; [lra|apply Rabs_pos]). lra. Qed.
Lemma cos_acc_two : trig_acc 2 (@tcos f64 exact_eops) cos.
Proof.
  intros x G. assert (C : Rabs (cos (fval x)) <= 1) by (apply Rabs_le, COS_bound). pose proof uro_b as U. pose proof eta_small as ET. destruct (ofR_err (cos (fval x))) as (G1 & X); [pose proof big23; lra|].
  split; [exact G1|]. change (@tcos f64 exact_eops x) with (ofR (cos (fval x))). assert (uro * Rabs (cos (fval x)) <= uro * 1) by (apply Rmult_le_compat_l; lra). lra.
Qed.
(** ** The variance is used as if it were the standard deviation *)
Lemma coded_gauss_1 mu x : coded_gauss mu 1 x = gauss mu 1 x.
Proof. unfold coded_gauss, gauss. f_equal. f_equal. field. Qed.
Lemma coded_gauss_4 : 3 / (99 / 100) * gauss 0 4 4 <= coded_gauss 0 4 4.
Proof.
  unfold coded_gauss, gauss. replace (- ((4 - 0) / 4 * ((4 - 0) / 4) / 2)) with (- (1 / 2)) by field. replace (- ((4 - 0) * (4 - 0)) / (2 * 4)) with (- (2)) by field.
  pose proof PI_up. assert (Sp : 0 < / sqrt (2 * PI * 4)) by (apply Rinv_0_lt_compat, sqrt_lt_R0; lra).
  assert (X : 3 / (99 / 100) * exp (- (2)) <= exp (- (1 / 2))); [|assert (/ sqrt (2 * PI * 4) * (3 / (99 / 100) * exp (- (2))) <= / sqrt (2 * PI * 4) * exp (- (1 / 2))) by (apply Rmult_le_compat_l; lra); lra].
  replace (- (1 / 2)) with ((/ 4 + / 4 + / 4 + / 4 + / 4 + / 4) + - (2)) by field. rewrite !exp_plus. pose proof (exp_ineq1_le (/ 4)) as E4. set (e := exp (/ 4)) in *. apply Rmult_le_compat_r; [left; apply exp_pos|].
  assert (e2 : 15 / 10 <= e * e) by (apply Rle_trans with (5 / 4 * (5 / 4)); [lra|apply Rmult_le_compat; lra]). assert (e4 : 225 / 100 <= e * e * (e * e)) by (apply Rle_trans with (15 / 10 * (15 / 10)); [lra|apply Rmult_le_compat; lra]).
  replace (e * e * e * e * e * e) with (e * e * (e * e) * (e * e)) by ring. apply Rle_trans with (225 / 100 * (15 / 10)); [lra|apply Rmult_le_compat; lra].
Qed.
Lemma coded_gauss_4_safe : safe (coded_gauss 0 4 4).
Proof.
  unfold coded_gauss. replace (- ((4 - 0) / 4 * ((4 - 0) / 4) / 2)) with (- (1 / 2)) by field. pose proof PI_up. assert (S1 : 1 <= sqrt (2 * PI * 4)) by (rewrite <- sqrt_1 at 1; apply sqrt_le_1_alt; lra).
  assert (S2 : sqrt (2 * PI * 4) <= 6) by (replace 6 with (sqrt (6 * 6)) by (apply sqrt_square; lra); apply sqrt_le_1_alt; lra). pose proof (exp_ineq1_le (- (1 / 2))). pose proof (exp_increasing (- (1 / 2)) 0 ltac:(lra)) as EI. rewrite exp_0 in EI.
  assert (/ 6 <= / sqrt (2 * PI * 4) <= 1) by (split; [apply Rinv_le_contravar; lra|rewrite <- Rinv_1; apply Rinv_le_contravar; lra]).
  apply safe_box. split; [apply Rle_trans with (/ 6 * (/ 2)); [lra|apply Rmult_le_compat; lra]|apply Rle_trans with (1 * 1); [apply Rmult_le_compat; lra|lra]].
Qed.
(** With variance 1 nothing underflows. *)
Lemma root_2pi : 2 <= sqrt (2 * PI * 1) <= 3.
Proof.
  pose proof PI_up. split; [replace 2 with (sqrt (2 * 2)) at 1 by (apply sqrt_square; lra)|replace 3 with (sqrt (3 * 3)) by (apply sqrt_square; lra)]; apply sqrt_le_1_alt; lra.
Qed.
Lemma exp_648 : bpow radix2 (-968) <= exp (- (648)).
Proof.
  pose proof F64Cplx_proofs.exp_700 as E7. replace (- (648)) with (INR 52 * 1 + - (700)) by (simpl; ring). rewrite exp_plus, exp_Ropp. change (-968)%Z with (52 + - (1020))%Z. rewrite bpow_plus, bpow_opp.
  apply Rmult_le_compat; [apply bpow_ge_0|left; apply Rinv_0_lt_compat, bpow_gt_0| |apply Rinv_le_contravar; [apply exp_pos|exact E7]].
  replace (bpow radix2 52) with (2 ^ 52) by (simpl; lra). replace (exp (INR 52 * 1)) with (exp 1 ^ 52).
  - apply pow_incr. pose proof (exp_ineq1_le 1). lra.
  - rewrite <- Rpower_pow by apply exp_pos. unfold Rpower. now rewrite ln_exp.
Qed.
Lemma gauss_safe mu x : Rabs (x - mu) <= 36 -> safe (coded_gauss mu 1 x).
Proof.
  intros H. unfold coded_gauss. pose proof root_2pi as R. set (r := sqrt (2 * PI * 1)) in *. assert (Hr : / 3 <= / r <= / 2) by (split; apply Rinv_le_contravar; lra).
  set (D := (x - mu) / 1). assert (HD : Rabs D <= 36) by (unfold D, Rdiv; rewrite Rinv_1, Rmult_1_r; exact H). assert (DD : 0 <= D * D <= 36 * 36).
  { split; [apply Rle_0_sqr|]. rewrite <- (Rabs_pos_eq (D * D)) by apply Rle_0_sqr. rewrite Rabs_mult. apply Rmult_le_compat; try apply Rabs_pos; exact HD. }
  assert (E1 : exp (- (D * D / 2)) <= 1). { rewrite <- exp_0. apply F64Gamma_proofs.exp_mono. lra. }
  assert (E2 : bpow radix2 (-968) <= exp (- (D * D / 2))) by (eapply Rle_trans; [exact exp_648|apply F64Gamma_proofs.exp_mono; lra]).
  pose proof (bpow_gt_0 radix2 (-968)) as B. split.
  - apply Rle_trans with (bpow radix2 (-2 + -968)); [apply bpow_le; lia|]. rewrite bpow_plus. change (bpow radix2 (-2)) with (/ 4). apply Rmult_le_compat; lra.
  - apply Rle_trans with (/ 2 * 1); [apply Rmult_le_compat; lra|]. apply Rle_trans with (bpow radix2 0); [change (bpow radix2 0) with 1; lra|apply bpow_le; lia].
Qed.
Lemma standard_pdf_f64 : forall (pw : f64 -> f64 -> f64) (E : EOps f64) a, 0 <= a <= 1000 -> libm_acc a pw E -> pow_square a pw ->
  forall (mu x : f64) d, normal_new mu one = Ret d -> fgood mu -> fgood x -> Rabs (fval x - fval mu) <= 36 ->
  let D := fval x - fval mu in
  fgood (@normal_pdf f64 _ (F64_pops pw) E d x) /\
  Rabs (fval (@normal_pdf f64 _ (F64_pops pw) E d x) - gauss (fval mu) 1 (fval x)) <= (3 * a + 5 + (2 * a + 6) * (D * D / 2)) * uro * gauss (fval mu) 1 (fval x).
Proof.
  intros pw E a Ha HL HS mu x d Hd Gm Gx H D. assert (Ed : d = mkNormal mu one) by (unfold normal_new in Hd; destruct (leb one zero); [discriminate|now injection Hd as <-]). rewrite Ed. destruct num1 as (G1 & E1). pose proof (gauss_safe _ _ H) as S.
  assert (B0 : bpow radix2 (-500) <= 1 <= bpow radix2 500) by (split; change 1 with (bpow radix2 0); apply bpow_le; lia).
  pose proof (normal_pdf_f64 pw E a Ha HL HS mu one x Gm G1 Gx) as T. rewrite E1 in T. cbv zeta in T. assert (QD : (fval x - fval mu) / 1 = D) by (unfold D; field). rewrite QD in T. rewrite <- coded_gauss_1. apply T; [exact B0|unfold D; lra|exact S].
Qed.
Lemma num4 : fgood (lit 4 1) /\ fval (lit 4 1) = 4. Proof. num_tac. Qed.
Lemma normal_pdf_wrong : forall (pw : f64 -> f64 -> f64) (E : EOps f64) a, 0 <= a <= 1000 -> libm_acc a pw E -> pow_square a pw ->
  exists (mu v x : f64) d, fval mu = 0 /\ fval v = 4 /\ fval x = 4 /\ normal_new mu v = Ret d /\ fgood (@normal_pdf f64 _ (F64_pops pw) E d x) /\
    3 * gauss 0 4 4 <= fval (@normal_pdf f64 _ (F64_pops pw) E d x).
Proof.
  intros pw E a Ha HL HS. destruct num4 as (G4 & E4). destruct zero_good as (G0 & E0). pose proof (normal_pdf_f64 pw E a Ha HL HS zero (lit 4 1) (lit 4 1) G0 G4 G4) as T. cbv zeta in T. rewrite E4, E0 in T.
  assert (Q : (4 - 0) / 4 = 1) by field. rewrite Q in T. destruct T as (G & Er); [| |exact coded_gauss_4_safe|].
  { split; [apply Rle_trans with (bpow radix2 0); [apply bpow_le; lia|simpl; lra]|apply Rle_trans with (bpow radix2 2); [simpl; lra|apply bpow_le; lia]]. } { rewrite Rabs_R1. lra. }
  exists zero, (lit 4 1), (lit 4 1), (mkNormal zero (lit 4 1)). repeat (split; [first [exact E0|exact E4|vm_compute; reflexivity|exact G]|]).
  pose proof coded_gauss_4 as C. pose proof (safe_pos _ coded_gauss_4_safe) as P. set (F := coded_gauss 0 4 4) in *. match goal with |- _ <= ?v => assert (Er' : Rabs (v - F) <= (3 * a + 5 + (2 * a + 6) * (1 * 1 / 2)) * uro * F) by exact Er; set (vv := v) in * end. clear Er. pose proof uro_b as U. pose proof (au_b a Ha) as A.
  assert ((3 * a + 5 + (2 * a + 6) * (1 * 1 / 2)) * uro * F <= / 100 * F) by (apply Rmult_le_compat_r; lra). revert Er'. unfold Rabs. destruct Rcase_abs; lra.
Qed.
Lemma normal_examples :
  (libm_acc 2 square_pow exact_eops /\ pow_square 2 square_pow /\ ln_acc 2 (@tln f64 exact_eops) /\ trig_acc 2 (@tcos f64 exact_eops) cos) /\
  (normal_new (T := f64) zero one = Ret (mkNormal zero one) /\ safe (coded_gauss 0 1 0)) /\
  (log_normal_new (T := f64) zero one = Ret (mkLogNormal zero one) /\ (ln 1 - 0) * (ln 1 - 0) / 2 / 1 <= 690 /\ safe (log_gauss 0 1 1)) /\
  (raised_new (T := f64) zero one = Ret (mkRaised zero one) /\ Rabs (/ 2 - 0) <= 1 - 2 * uro * (Rabs 0 + 1) /\ 1 + 2 * uro * (Rabs 0 + 1) <= Rabs (4 - 0)).
Proof.
  assert (L : (ln 1 - 0) * (ln 1 - 0) / 2 / 1 = 0) by (rewrite ln_1; field). pose proof uro_b as U. split; [|split; [|split]].
  - split; [exact square_pow_libm|]. split; [exact square_pow_square|]. split; [exact ln_acc_two|exact cos_acc_two].
  - split; [reflexivity|]. apply gauss_safe. rewrite Rminus_0_r, Rabs_R0. lra.
  - split; [reflexivity|]. split; [lra|]. unfold log_gauss. rewrite L, Ropp_0, exp_0. pose proof root_2pi. rewrite Rmult_1_l, Rmult_1_r. apply safe_box. split; [apply Rle_trans with (/ 3); [lra|]|apply Rle_trans with (/ 2); [|lra]]; apply Rinv_le_contravar; lra.
  - split; [reflexivity|]. rewrite !Rminus_0_r, Rabs_R0, !Rabs_pos_eq by lra. split; lra.
Qed.
