(** The exponential distribution in binary64. *)
From Coq Require Import ZArith Reals Lra Lia Bool Arith List SpecFloat.
From Flocq Require Import Core IEEE754.BinarySingleNaN.
From Verif Require Import Outcome Scalar RealOps Elem_model Int_model Ode_model Special_model Stat_model F64Flocq F64_spec F64Err_proofs F64Grid_proofs F64Euler_proofs F64QR_proofs F64Cplx_spec F64Cplx_proofs F64Libm_proofs F64Digamma_proofs F64Dist_proofs.
Import ListNotations.
Local Open Scope R_scope.

Lemma exp_sub1 d : Rabs d <= / 1000 -> Rabs (exp d - 1) <= 1002 / 1000 * Rabs d.
Proof.
  intro H. apply Rabs_le_inv in H. pose proof (exp_ineq1_le d) as E1. pose proof (exp_ineq1_le (- d)) as E2. rewrite exp_Ropp in E2. pose proof (exp_pos d) as P.
  assert (E3 : exp d * (1 - d) <= 1). { apply (Rmult_le_compat_l (exp d)) in E2; [|lra]. rewrite Rinv_r in E2 by lra. lra. }
  unfold Rabs. repeat destruct Rcase_abs; try lra; nra.
Qed.
Lemma xexp y : 0 <= y -> y * exp (- y) <= / 2.
Proof.
  intro H. pose proof (exp_ineq1_le (y - 1)) as E. replace (y - 1) with (y + - 1) in E at 2 by ring. rewrite exp_plus in E.
  assert (E1 : exp (- 1) <= / 2). { change (-1) with (- (1)). rewrite exp_Ropp. apply Rinv_le_contravar; [lra|]. pose proof (exp_ineq1_le 1). lra. }
  rewrite exp_Ropp. pose proof (exp_pos y) as P. apply (Rmult_le_reg_r (exp y)); [exact P|]. rewrite Rmult_assoc, Rinv_l, Rmult_1_r by lra.
  assert (exp y * exp (- 1) <= exp y * / 2) by (apply Rmult_le_compat_l; lra). lra.
Qed.
Section Exponential.
Context {E : EOps f64}.
Variables (a : R) (l x : f64).
Hypothesis Ra : 0 <= a <= 1000000.
Hypothesis Ha : exp_acc a texp.
Hypothesis Gl : fgood l.
Hypothesis Gx : fgood x.
Hypothesis Hl : 0 < fval l <= bpow radix2 1000.
Hypothesis Hx : 0 <= fval x.
Hypothesis Hy : fval l * fval x <= 690.
Let y := fval l * fval x.
Lemma y_pos : 0 <= y. Proof. apply Rmult_le_pos; lra. Qed.
Lemma exp_core t : fgood t -> Rabs (fval t + y) <= uro * y + eta64 ->
  fgood (texp t) /\ Rabs (fval (texp t) - exp (- y)) <= 1004 / 1000 * uro * (a + y + / 1000) * exp (- y).
Proof.
  intros Gt Ht. pose proof y_pos as Y0. fold y in Hy. pose proof uro_pos as U. pose proof uro_tiny as UT. pose proof eta64_pos as H0. pose proof eta_uro as HU.
  assert (D : Rabs (fval t + y) <= uro * (y + / 1000000)) by lra. assert (Dm : uro * (y + / 1000000) <= / 1000).
  { apply Rle_trans with (/ 1000000000000000 * 700); [apply Rmult_le_compat; lra|lra]. }
  assert (T7 : Rabs (fval t) <= 700) by (apply Rabs_le_inv in D; apply Rabs_le; lra).
  destruct (Ha t Gt T7) as (Ge & Ee). split; [exact Ge|]. set (d := fval t + y) in *.
  assert (EX : exp (fval t) = exp (- y) * exp d) by (rewrite <- exp_plus; f_equal; unfold d; ring). rewrite EX in Ee.
  pose proof (exp_sub1 d ltac:(lra)) as S. pose proof (exp_pos (- y)) as P. set (X := exp (- y)) in *. set (e := fval (texp t)) in *.
  assert (S' : Rabs (exp d - 1) <= 1002 / 1000 * (uro * (y + / 1000000))) by lra. 
  assert (E1 : exp d <= 1002 / 1000) by (apply Rabs_le_inv in S'; lra).
  replace (e - X) with ((e - X * exp d) + X * (exp d - 1)) by ring. eapply Rle_trans; [apply Rabs_triang|]. rewrite (Rabs_mult X), (Rabs_pos_eq X) by lra.
  assert (X * Rabs (exp d - 1) <= X * (1002 / 1000 * (uro * (y + / 1000000)))) by (apply Rmult_le_compat_l; lra).
  assert (A0 : 0 <= a * uro) by (apply Rmult_le_pos; lra). assert (AX : 0 <= a * uro * X) by (apply Rmult_le_pos; lra). assert (UX : 0 <= uro * X) by (apply Rmult_le_pos; lra). assert (YX : 0 <= uro * X * y) by (apply Rmult_le_pos; lra).
  assert (a * uro * X * exp d <= a * uro * X * (1002 / 1000)) by (apply Rmult_le_compat_l; lra). lra.
Qed.
Lemma exp_arg (u v : f64) : fgood u -> fgood v -> fval u * fval v = y -> fgood (mul (neg u) v) /\ Rabs (fval (mul (neg u) v) + y) <= uro * y + eta64.
Proof.
  intros Gu Gv Hp. pose proof y_pos as Y0. fold y in Hy. destruct (fneg_good u Gu) as ((Vn & Fn) & En). destruct Gv as (Vv & Fv).
  assert (P : fval (neg u) * fval v = - y) by (rewrite En, <- Hp; ring).
  assert (R : Rabs (fval (neg u) * fval v) <= bpow radix2 1023). { rewrite P, Rabs_Ropp, Rabs_pos_eq by lra. pose proof big_1023. lra. }
  destruct (fmul_ok (neg u) v Vn Vv Fn Fv R) as (V & F & Er). split; [split; assumption|]. rewrite P, Rabs_Ropp, (Rabs_pos_eq y) in Er by lra. replace (fval (mul (neg u) v) + y) with (fval (mul (neg u) v) - - y) by ring. exact Er.
Qed.
Lemma exponential_pdf_f64 : let p := exponential_pdf (mkExponential l) x in let P := fval l * exp (- y) in
  fgood p /\ Rabs (fval p - P) <= 101 / 100 * uro * (a + y + 1) * P + eta64.
Proof.
  cbv zeta. unfold exponential_pdf. cbn [ex_l]. rewrite (fltb_val x zero (proj1 Gx) V0f (proj2 Gx) eq_refl). change (fval zero) with 0. rewrite Rlt_bool_false by exact Hx.
  destruct (exp_arg l x Gl Gx eq_refl) as (Gt & Et). destruct (exp_core _ Gt Et) as (Ge & Ee). set (e := texp (mul (neg l) x)) in *. pose proof y_pos as Y0. fold y in Hy.
  pose proof uro_pos as U. pose proof uro_tiny as UT. pose proof eta64_pos as H0. pose proof (exp_pos (- y)) as P. 
  assert (X1 : exp (- y) <= 1) by (rewrite <- exp_0; destruct (Rle_lt_or_eq_dec 0 y Y0) as [Z|Z]; [left; apply exp_increasing; lra|right; f_equal; lra]). set (X := exp (- y)) in *.
  assert (UX : 0 <= uro * X) by (apply Rmult_le_pos; lra).
  assert (K : 1004 / 1000 * uro * (a + y + / 1000) * X <= / 1000000 * X).
  { apply Rmult_le_compat_r; [lra|]. assert (uro * (a + y + / 1000) <= / 1000000000000000 * 2000000) by (apply Rmult_le_compat; lra). lra. }
  assert (EB : 0 <= fval e <= 1001 / 1000 * X) by (apply Rabs_le_inv in Ee; lra).
  assert (R : Rabs (fval l * fval e) <= bpow radix2 1023).
  { rewrite Rabs_pos_eq by (apply Rmult_le_pos; lra). apply Rle_trans with (bpow radix2 1000 * 2); [apply Rmult_le_compat; lra|]. change 2 with (bpow radix2 1). rewrite <- bpow_plus. apply bpow_le. lia. }
  destruct (fmul_ok l e (proj1 Gl) (proj1 Ge) (proj2 Gl) (proj2 Ge) R) as (V & F & Er). split; [split; assumption|].
  rewrite (Rabs_pos_eq (fval l * fval e)) in Er by (apply Rmult_le_pos; lra). set (L := fval l) in *. set (p := fval (mul l e)) in *. set (ev := fval e) in *.
  replace (p - L * X) with ((p - L * ev) + L * (ev - X)) by ring. eapply Rle_trans; [apply Rabs_triang|]. rewrite (Rabs_mult L), (Rabs_pos_eq L) by lra.
  assert (L * Rabs (ev - X) <= L * (1004 / 1000 * uro * (a + y + / 1000) * X)) by (apply Rmult_le_compat_l; lra).
  assert (L * ev <= L * (1001 / 1000 * X)) by (apply Rmult_le_compat_l; lra). assert (uro * (L * ev) <= uro * (L * (1001 / 1000 * X))) by (apply Rmult_le_compat_l; lra).
  assert (W : 0 <= uro * (L * X)) by (apply Rmult_le_pos; [lra|apply Rmult_le_pos; lra]). assert (0 <= uro * (L * X) * a) by (apply Rmult_le_pos; lra). assert (0 <= uro * (L * X) * y) by (apply Rmult_le_pos; lra). lra.
Qed.
Lemma exponential_cdf_f64 : let p := exponential_cdf (mkExponential l) x in fgood p /\ Rabs (fval p - (1 - exp (- y))) <= (101 / 100 * a + 2) * uro.
Proof.
  cbv zeta. unfold exponential_cdf. cbn [ex_l]. rewrite (fltb_val x zero (proj1 Gx) V0f (proj2 Gx) eq_refl). change (fval zero) with 0. rewrite Rlt_bool_false by exact Hx.
  destruct (exp_arg x l Gx Gl (Rmult_comm _ _)) as (Gt & Et). destruct (exp_core _ Gt Et) as (Ge & Ee). set (e := texp (mul (neg x) l)) in *. pose proof y_pos as Y0. fold y in Hy.
  pose proof uro_pos as U. pose proof uro_tiny as UT. pose proof eta64_pos as H0. pose proof (exp_pos (- y)) as P. pose proof (xexp y Y0) as XE.
  assert (X1 : exp (- y) <= 1) by (rewrite <- exp_0; destruct (Rle_lt_or_eq_dec 0 y Y0) as [Z|Z]; [left; apply exp_increasing; lra|right; f_equal; lra]). set (X := exp (- y)) in *.
  assert (K : 1004 / 1000 * uro * (a + y + / 1000) * X <= 1004 / 1000 * uro * (a + / 1000 + / 2)).
  { rewrite Rmult_assoc. apply Rmult_le_compat_l; [lra|]. assert (a * X <= a * 1) by (apply Rmult_le_compat_l; lra). lra. }
  assert (K2 : 1004 / 1000 * uro * (a + / 1000 + / 2) <= / 1000000) by (assert (uro * (a + / 1000 + / 2) <= / 1000000000000000 * 2000000) by (apply Rmult_le_compat; lra); lra).
  assert (EB : - / 1000 <= fval e <= 1001 / 1000) by (apply Rabs_le_inv in Ee; lra).
  assert (B1 : Rabs (1 - fval e) <= 1001 / 1000) by (apply Rabs_le; lra).
  assert (R : Rabs (fval one - fval e) <= bpow radix2 1023) by (rewrite fval_one; pose proof big_1023; lra).
  destruct (fsub_ok one e V1f (proj1 Ge) eq_refl (proj2 Ge) R) as (V & F & Er). split; [split; assumption|]. rewrite fval_one in Er.
  set (p := fval (sub one e)) in *. set (ev := fval e) in *. replace (p - (1 - X)) with ((p - (1 - ev)) - (ev - X)) by ring. unfold Rminus at 1. eapply Rle_trans; [apply Rabs_triang|]. rewrite Rabs_Ropp.
  assert (uro * Rabs (1 - ev) <= uro * (1001 / 1000)) by (apply Rmult_le_compat_l; lra). assert (0 <= a * uro) by (apply Rmult_le_pos; lra). lra.
Qed.
End Exponential.
(** The cdf of 2^-60: the relative error is at least one, whichever accurate exponential is used. *)
Definition pm60 : f64 := S754_finite false 4503599627370496 (-112).
Lemma pm60_val : fval pm60 = bpow radix2 (-60).
Proof. unfold fval, pm60, SF2R, F2R. simpl cond_Zopp. cbn [Fnum Fexp]. replace (IZR 4503599627370496) with (bpow radix2 52) by reflexivity. rewrite <- bpow_plus. reflexivity. Qed.
Lemma grid_53 e : fgood e -> / 2 <= fval e -> exists k, fval e = IZR k * bpow radix2 (-53).
Proof.
  intros (V & F) H. pose proof (fmt_fval e V) as G. unfold fmt64, generic_format in G. set (c := Generic_fmt.cexp radix2 (FLT_exp (-1074) 53) (fval e)) in *.
  assert (C : (-53 <= c)%Z). { unfold c, Generic_fmt.cexp, FLT_exp. assert (0 <= mag radix2 (fval e))%Z; [|lia]. apply (mag_ge_bpow radix2 (fval e) 0). rewrite Rabs_pos_eq by lra. simpl (bpow radix2 (0 - 1)). lra. }
  set (m := Ztrunc _) in G. exists (m * 2 ^ (c + 53))%Z. rewrite G. unfold F2R. cbn [Fnum Fexp]. rewrite mult_IZR, Rmult_assoc. f_equal.
  replace (IZR (2 ^ (c + 53))) with (bpow radix2 (c + 53)) by (symmetry; apply (IZR_Zpower radix2); lia). rewrite <- bpow_plus. f_equal. lia.
Qed.
Lemma exponential_cdf_small (E : EOps f64) a : 0 <= a <= 1000000 -> exp_acc a texp -> let p := exponential_cdf (mkExponential one) pm60 in let P := 1 - exp (- bpow radix2 (-60)) in
  fgood p /\ 0 < P /\ P <= Rabs (fval p - P).
Proof.
  intros Ra Ha. cbv zeta. set (s := bpow radix2 (-60)). assert (S0 : 0 < s) by apply bpow_gt_0.
  assert (SU : 128 * s = uro). { unfold s, uro. change 128 with (bpow radix2 7). rewrite <- bpow_plus. reflexivity. }
  assert (P0 : 0 < 1 - exp (- s) <= s). { split; [pose proof (exp_increasing (- s) 0 ltac:(lra)) as EI; rewrite exp_0 in EI; lra|pose proof (exp_ineq1_le (- s)); lra]. }
  assert (Hc : exponential_cdf (mkExponential (one : f64)) pm60 = sub one (texp (mul (neg pm60) one))) by reflexivity. rewrite Hc.
  assert (Gp : fgood pm60) by (split; reflexivity). assert (G1 : fgood one) by (split; reflexivity).
  set (t := mul (neg pm60) one : f64). assert (Et : t = S754_finite true 4503599627370496 (-112)) by (vm_compute; reflexivity).
  assert (Gt : fgood t) by (rewrite Et; split; reflexivity). assert (Vt : fval t = - s). { rewrite Et. change (S754_finite true 4503599627370496 (-112)) with (neg pm60 : f64). destruct (fneg_good pm60 Gp) as (_ & ->). rewrite pm60_val. reflexivity. }
  pose proof uro_pos as U. pose proof uro_tiny as UT.
  destruct (Ha t Gt ltac:(rewrite Vt, Rabs_Ropp, Rabs_pos_eq by lra; lra)) as (Ge & Ee). rewrite Vt in Ee. set (e := texp t) in *.
  assert (AU : 0 <= a * uro <= / 1000000) by (split; [apply Rmult_le_pos; lra|]; apply Rle_trans with (1000000 * / 1000000000000000); [apply Rmult_le_compat; lra|lra]).
  assert (EB : 999 / 1000 <= fval e <= 1001 / 1000). { apply Rabs_le_inv in Ee. assert (a * uro * exp (- s) <= / 1000000 * 1) by (apply Rmult_le_compat; lra). assert (0 <= a * uro * exp (- s)) by (apply Rmult_le_pos; lra). lra. }
  destruct (grid_53 e Ge ltac:(lra)) as (k & Hk). fold uro in Hk.
  assert (B1 : Rabs (fval one - fval e) <= bpow radix2 1023) by (rewrite fval_one; pose proof big_1023; apply Rabs_le; lra).
  destruct (fsub_ok one e V1f (proj1 Ge) eq_refl (proj2 Ge) B1) as (V & F & _). destruct (fsub_round one e V1f (proj1 Ge) eq_refl (proj2 Ge) (no_ov _ B1)) as (Er & _). split; [split; assumption|]. split; [lra|].
  rewrite fval_one in Er. rewrite Er. set (P := 1 - exp (- s)) in *.
  assert (One : 1 = IZR (2 ^ 53) * uro) by (rewrite uro_val; change (2 ^ 53)%Z with 9007199254740992%Z; field). 
  assert (D : 1 - fval e = IZR (2 ^ 53 - k) * uro) by (rewrite Hk, One at 1; rewrite minus_IZR; ring). rewrite D. set (j := (2 ^ 53 - k)%Z). clearbody j.
  assert (RU : rnd64 uro = uro) by (apply (rnd_bp (-53)); lia).
  destruct (Z_dec' j 0) as [[Hj|Hj]|Hj].
  - assert (rnd64 (IZR j * uro) <= 0). { rewrite <- rnd_0. apply rnd_le. assert (IZR j <= 0) by (apply IZR_le; lia). nra. } rewrite Rabs_left1 by lra. lra.
  - assert (uro <= rnd64 (IZR j * uro)). { rewrite <- RU at 1. apply rnd_le. assert (1 <= IZR j) by (apply IZR_le; lia). nra. } rewrite Rabs_pos_eq by lra. lra.
  - subst j. rewrite Rmult_0_l, rnd_0, Rminus_0_l, Rabs_Ropp, Rabs_pos_eq by lra. lra.
Qed.
(** ** Quantile *)
Lemma ln_le x y : 0 < x -> x <= y -> ln x <= ln y.
Proof. intros H [K|K]; [left; now apply ln_increasing|right; now f_equal]. Qed.
Lemma ln_1p d : Rabs d <= / 1000 -> Rabs (ln (1 + d)) <= 1002 / 1000 * Rabs d.
Proof.
  intro H. apply Rabs_le_inv in H. assert (E1 : ln (1 + d) <= d). { rewrite <- (ln_exp d) at 2. apply ln_le; [lra|]. apply exp_ineq1_le. }
  assert (E2 : - ln (1 + d) <= - d / (1 + d)). { rewrite <- ln_Rinv by lra. rewrite <- (ln_exp (- d / (1 + d))). apply ln_le; [apply Rinv_0_lt_compat; lra|]. eapply Rle_trans; [|apply exp_ineq1_le]. right. field. lra. }
  assert (E3 : - d / (1 + d) * (1 + d) = - d) by (field; lra). set (z := - d / (1 + d)) in *. unfold Rabs. repeat destruct Rcase_abs; try lra; nra.
Qed.
Lemma exponential_quantile_f64 (E : EOps f64) a l p : 0 <= a <= 1000000 -> ln_acc a tln -> fgood l -> bpow radix2 (-1000) <= fval l -> fgood p -> 0 <= fval p < 1 ->
  let q := exponential_quantile (mkExponential l) p in let L := - ln (1 - fval p) in
  fgood q /\ Rabs (fval q - L / fval l) <= uro * ((a + 2) * L + 2) / fval l + eta64.
Proof.
  intros Ra Ha Gl Hl Gp Hp. cbv zeta. unfold exponential_quantile. cbn [ex_l]. set (L := - ln (1 - fval p)).
  pose proof uro_pos as U. pose proof uro_tiny as UT. pose proof eta64_pos as H0. pose proof eta_uro as HU. pose proof (bpow_gt_0 radix2 (-1000)) as B0.
  assert (L0 : 0 <= L) by (unfold L; pose proof (ln_le (1 - fval p) 1 ltac:(lra) ltac:(lra)) as H; rewrite ln_1 in H; lra).
  assert (B1 : Rabs (fval one - fval p) <= bpow radix2 1023) by (rewrite fval_one; pose proof big_1023; apply Rabs_le; lra).
  destruct (fsub_ok one p V1f (proj1 Gp) eq_refl (proj2 Gp) B1) as (Vv & Fv & Ev). rewrite fval_one in Ev. set (v := sub one p) in *. assert (Gv : fgood v) by (split; assumption).
  rewrite (Rabs_pos_eq (1 - fval p)) in Ev by lra.
  set (w1 := 1 - fval p) in *. assert (W1 : 0 < w1) by (unfold w1; lra). set (d := (fval v - w1) / w1). assert (Vd : fval v = w1 * (1 + d)) by (unfold d; field; lra).
  assert (Hd : Rabs d <= uro). { unfold d, Rdiv. rewrite Rabs_mult, (Rabs_pos_eq (/ w1)) by (apply Rlt_le, Rinv_0_lt_compat, W1). apply (Rmult_le_reg_r w1); [exact W1|]. rewrite Rmult_assoc, Rinv_l by lra. lra. }
  assert (Vp : 0 < fval v) by (rewrite Vd; apply Rmult_lt_0_compat; [exact W1|]; apply Rabs_le_inv in Hd; lra).
  pose proof (ln_1p d ltac:(lra)) as LD. assert (LV : ln (fval v) = - L + ln (1 + d)) by (rewrite Vd, ln_mult by (try assumption; apply Rabs_le_inv in Hd; lra); unfold L; lra).
  destruct (Ha v Gv Vp) as (Gw & Ew). pose proof (ln_range v Gv Vp) as LR. set (w := tln v) in *. set (ld := ln (1 + d)) in *. rewrite LV in Ew, LR.
  assert (LDB : Rabs ld <= 1002 / 1000 * uro) by lra.
  assert (A0 : 0 <= a * uro <= / 1000000000) by (split; [apply Rmult_le_pos; lra|]; apply Rle_trans with (1000000 * / 1000000000000000); [apply Rmult_le_compat; lra|lra]).
  assert (LB : Rabs (- L + ld) <= L + 1002 / 1000 * uro). { eapply Rle_trans; [apply Rabs_triang|]. rewrite Rabs_Ropp, (Rabs_pos_eq L) by lra. lra. }
  assert (EW : Rabs (- fval w - L) <= a * uro * L + 101 / 100 * uro).
  { replace (- fval w - L) with (- ((fval w - (- L + ld)) + ld)) by ring. rewrite Rabs_Ropp. eapply Rle_trans; [apply Rabs_triang|].
    assert (a * uro * Rabs (- L + ld) <= a * uro * (L + 1002 / 1000 * uro)) by (apply Rmult_le_compat_l; lra). assert (a * uro * (1002 / 1000 * uro) <= / 1000000000 * (1002 / 1000 * uro)) by (apply Rmult_le_compat_r; lra). lra. }
  destruct (fneg_good w Gw) as (Gn & En). set (nw := neg w) in *. rewrite <- En in EW.
  pose proof ln_2_le_1 as L2. assert (LL : L <= 1100) by (rewrite <- (Rabs_pos_eq L L0), <- Rabs_Ropp; replace (- L) with ((- L + ld) - ld) by ring; unfold Rminus; eapply Rle_trans; [apply Rabs_triang|]; rewrite Rabs_Ropp; lra).
  assert (AL : 0 <= a * uro * L <= / 1000000000 * L) by (split; [apply Rmult_le_pos; lra|apply Rmult_le_compat_r; lra]).
  assert (NB : Rabs (fval nw) <= 1001 / 1000 * L + 102 / 100 * uro). { apply Rabs_le_inv in EW. apply Rabs_le. lra. }
  assert (Il : 0 < / fval l <= bpow radix2 1000). { split; [apply Rinv_0_lt_compat; lra|]. change 1000%Z with (- -1000)%Z. rewrite bpow_opp. apply Rinv_le_contravar; lra. }
  assert (R : Rabs (fval nw / fval l) <= bpow radix2 1023).
  { unfold Rdiv. rewrite Rabs_mult, (Rabs_pos_eq (/ fval l)) by lra. apply Rle_trans with (bpow radix2 12 * bpow radix2 1000); [apply Rmult_le_compat; [apply Rabs_pos|lra|simpl (bpow radix2 12); lra|lra]|]. rewrite <- bpow_plus. apply bpow_le. lia. }
  destruct (fdiv_ok nw l (proj1 Gn) (proj1 Gl) (proj2 Gn) (proj2 Gl) ltac:(lra) R) as (V & F & Er). split; [split; assumption|].
  unfold Rdiv in *. set (i := / fval l) in *. set (q := fval (div nw l)) in *. rewrite Rabs_mult, (Rabs_pos_eq i) in Er by lra.
  replace (q - L * i) with ((q - fval nw * i) + (fval nw - L) * i) by ring. eapply Rle_trans; [apply Rabs_triang|]. rewrite (Rabs_mult (fval nw - L)), (Rabs_pos_eq i) by lra.
  assert (Rabs (fval nw - L) * i <= (a * uro * L + 101 / 100 * uro) * i) by (apply Rmult_le_compat_r; lra).
  assert (uro * (Rabs (fval nw) * i) <= uro * ((1001 / 1000 * L + 102 / 100 * uro) * i)) by (apply Rmult_le_compat_l; [lra|]; apply Rmult_le_compat_r; lra).
  assert (UI : 0 <= uro * i) by (apply Rmult_le_pos; lra). assert (0 <= uro * i * L) by (apply Rmult_le_pos; lra). assert (uro * (uro * i) <= / 1000000000000000 * (uro * i)) by (apply Rmult_le_compat_r; lra). lra.
Qed.
Lemma exponential_quantile_small (E : EOps f64) a : ln_acc a tln -> fval (exponential_quantile (mkExponential one) pm60) = 0 /\ 0 < - ln (1 - bpow radix2 (-60)).
Proof.
  intro Ha. split.
  - unfold exponential_quantile. cbn [ex_l]. replace (sub one pm60 : f64) with (one : f64) by (vm_compute; reflexivity).
    assert (G1 : fgood one) by (split; reflexivity). destruct (Ha one G1 ltac:(rewrite fval_one; lra)) as (Gw & Ew). rewrite fval_one, ln_1, Rabs_R0, Rmult_0_r, Rplus_0_l, Rminus_0_r in Ew. set (w := tln (one : f64)) in *.
    assert (EE : bpow radix2 (-1074) = 2 * eta64) by (unfold eta64; change 2 with (bpow radix2 1); rewrite <- bpow_plus; reflexivity). pose proof eta64_pos as H0.
    destruct (fneg_good w Gw) as (Gn & En). pose proof (fgood_range w Gw) as (_ & R1). pose proof (fgood_range (neg w) Gn) as (_ & R2). apply Rabs_le_inv in Ew. rewrite En in R2.
    assert (W0 : fval w = 0) by (destruct (Rtotal_order (fval w) 0) as [H|[H|H]]; [specialize (R2 ltac:(lra)); lra|exact H|specialize (R1 H); lra]).
    assert (B : Rabs (fval (neg w) / fval one) <= bpow radix2 1023) by (rewrite En, W0, fval_one; replace (- 0 / 1) with 0 by field; rewrite Rabs_R0; apply bpow_ge_0).
    destruct (fdiv_round (neg w) one (proj1 Gn) V1f (proj2 Gn) eq_refl ltac:(rewrite fval_one; lra) (no_ov _ B)) as (-> & _). rewrite En, W0. replace (- 0 / fval one) with 0 by (rewrite fval_one; field). apply rnd_0.
  - pose proof (bpow_gt_0 radix2 (-60)). assert (bpow radix2 (-60) < 1) by (change 1 with (bpow radix2 0); apply bpow_lt; lia). pose proof (ln_increasing (1 - bpow radix2 (-60)) 1 ltac:(lra) ltac:(lra)) as H1. rewrite ln_1 in H1. lra.
Qed.
