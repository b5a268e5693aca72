(** Rounding errors of the densities of the gamma, chi-square, beta and t distributions in binary64. *)
From Coq Require Import Arith Lia List Bool ZArith Reals Lra Psatz SpecFloat.
From Flocq Require Import Core IEEE754.BinarySingleNaN.
From Verif Require Import Outcome Scalar RealOps Elem_model Int_model Ode_model Complex_model Special_model Special_spec Stat_model Stat_spec F64_spec F64Cplx_spec F64Gamma_spec F64Density_spec
  F64Flocq F64Err_proofs F64Grid_proofs F64Euler_proofs F64Lin_proofs F64QR_proofs F64Libm_proofs F64Var_proofs GammaFun_proofs GammaAll_proofs F64Gamma_proofs F64GammaFun_proofs.
Local Open Scope R_scope.

Lemma safe_rng r : safe r -> bpow radix2 (-999) <= r <= bpow radix2 1022.
Proof. intros (L & H). split; [eapply Rle_trans; [|exact L]|eapply Rle_trans; [exact H|]]; apply bpow_le; lia. Qed.
Lemma safe_pos r : safe r -> 0 < r.
Proof. intros (L & _). pose proof (bpow_gt_0 radix2 (-990)). lra. Qed.
Lemma exact_near (x : f64) : fgood x -> 0 < fval x -> fnear 0 x (fval x).
Proof. intros G H. split; [exact G|now apply near_refl]. Qed.
Lemma ln_size (x : f64) : fgood x -> 0 < fval x -> Rabs (ln (fval x)) <= 1074.
Proof.
  intros G H. destruct (fgood_range x G) as (U & L). specialize (L H). rewrite (Rabs_pos_eq (fval x)) in U by lra.
  assert (L2 : 0 < ln 2 <= 1). { split; [rewrite <- ln_1; apply ln_increasing; lra|]. rewrite <- (ln_exp 1). apply ln_mono; [lra|]. pose proof (exp_ineq1_le 1). lra. }
  pose proof (ln_mono _ _ (bpow_gt_0 radix2 (-1074)) L) as L1. pose proof (ln_mono _ _ H (Rlt_le _ _ U)) as U1. rewrite !ln_bpow in *. apply Rabs_le. split; lra.
Qed.

Lemma zero_good : fgood (zero : f64) /\ fval (zero : f64) = 0.
Proof. split; [split; vm_compute; reflexivity|reflexivity]. Qed.
Lemma pos_leb (x : f64) : fgood x -> 0 < fval x -> leb x zero = false.
Proof. intros (V & F) H. destruct zero_good as ((Vz & Fz) & Ez). rewrite (fleb_val x zero V Vz F Fz), Ez. now apply Rle_bool_false. Qed.
Lemma pos_ltb (x : f64) : fgood x -> 0 < fval x -> ltb x zero = false.
Proof. intros (V & F) H. destruct zero_good as ((Vz & Fz) & Ez). rewrite (fltb_val x zero V Vz F Fz), Ez. apply Rlt_bool_false. lra. Qed.

Section Libm.
Variables (pw : f64 -> f64 -> f64) (E : EOps f64) (a : R).
Hypotheses (Ha : 0 <= a <= 1000) (HL : libm_acc a pw E).
#[local] Existing Instance E.
#[local] Instance PD : POps f64 := F64_pops pw.
#[local] Notation au := (102 / 100 * (a * uro)).
Lemma pow_fnear (x y : f64) c X Y d : fnear c x X -> fgood y -> Rabs (fval y - Y) <= d -> 0 <= c -> 0 <= d -> d * (Rabs (ln X) + c) + Rabs Y * c <= / 200 -> safe (Rpower X Y) ->
  fnear (au + (d * (Rabs (ln X) + c) + Rabs Y * c)) (tpow x y) (Rpower X Y).
Proof.
  intros (Gx & Nx) Gy Hy C0 D0 K S. pose proof (near_pos _ _ _ Nx) as (X0 & X1). pose proof (near_ln _ _ _ Nx) as L.
  assert (L1 : Rabs (ln (fval x)) <= Rabs (ln X) + c). { replace (ln (fval x)) with (ln X + (ln (fval x) - ln X)) by ring. eapply Rle_trans; [apply Rabs_triang|]. lra. }
  pose proof (near_power _ _ _ _ _ _ _ Nx Hy L1) as N. assert (K0 : 0 <= d * (Rabs (ln X) + c) + Rabs Y * c).
  { pose proof (Rabs_pos (ln X)). pose proof (Rabs_pos Y). apply Rplus_le_le_0_compat; apply Rmult_le_pos; lra. }
  pose proof (near_range (d * (Rabs (ln X) + c) + Rabs Y * c) _ _ ltac:(lra) N) as Rg. destruct S as (S1 & S2). pose proof (bpow_gt_0 radix2 (-990)) as B0.
  destruct HL as (HP & _). destruct (HP x y Gx Gy X0) as (G & Er).
  { assert (B : bpow radix2 1020 = 2 * bpow radix2 1019) by (change 1020%Z with (1 + 1019)%Z; rewrite bpow_plus; reflexivity). pose proof (bpow_gt_0 radix2 1019).
    assert (B' : bpow radix2 (-990) = 2 * bpow radix2 (-991)) by (change (-990)%Z with (1 + -991)%Z; rewrite bpow_plus; reflexivity). assert (bpow radix2 (-1020) <= bpow radix2 (-991)) by (apply bpow_le; lia). lra. }
  split; [exact G|]. eapply near_trans; [eapply (acc_near a Ha); [|exact Er]; apply exp_pos|exact N].
Qed.
Lemma exp_fnear (t : f64) T d : fgood t -> Rabs (fval t - T) <= d -> d <= / 200 -> Rabs T <= 699 -> fnear (au + d) (texp t) (exp T).
Proof.
  intros G H D HT. destruct HL as (_ & HE & _). destruct (HE t G) as (Gr & Er). { replace (fval t) with (T + (fval t - T)) by ring. eapply Rle_trans; [apply Rabs_triang|]. lra. }
  split; [exact Gr|]. eapply near_trans; [eapply (acc_near a Ha); [|exact Er]; apply exp_pos|]. now apply near_exp.
Qed.
Lemma sub_one (y : f64) : fgood y -> Rabs (fval y) <= 1000 -> fgood (sub y one) /\ Rabs (fval (sub y one) - (fval y - 1)) <= uro * Rabs (fval y - 1).
Proof.
  intros (V & F) H. destruct num1 as ((V1 & F1) & E1). pose proof big23 as B23. destruct (fsub_ok y one V V1 F F1) as (Vs & Fs & Es).
  { rewrite E1. eapply Rle_trans; [apply Rabs_triang|]. rewrite Rabs_Ropp, (Rabs_pos_eq 1) by lra. lra. }
  rewrite E1 in Es. split; [split; assumption|exact Es].
Qed.

(** ** The gamma distribution *)
Theorem gamma_pdf_f64 fuel (al be x : f64) g : fgood al -> fgood be -> fgood x -> bpow radix2 (-600) <= fval al <= 141 -> 0 < fval be -> 0 < fval x -> fval be * fval x <= 699 ->
  is_gamma (fval al) g -> safe (Rpower (fval be) (fval al)) -> safe (Rpower (fval be) (fval al) / g) -> safe (Rpower (fval x) (fval al - 1)) ->
  safe (Rpower (fval be) (fval al) / g * Rpower (fval x) (fval al - 1)) -> safe (gamma_density (fval al) (fval be) g (fval x)) ->
  exists v, gammad_pdf (Sp := impl_special fuel) (mkGammaD al be) x = Ret v /\ fgood v /\
  Rabs (fval v - gamma_density (fval al) (fval be) g (fval x))
    <= (36 / 10000000000000 + (9 * a + 5010 + 2 * Rabs (fval al - 1) * Rabs (ln (fval x)) + 2 * (fval be * fval x)) * uro) * gamma_density (fval al) (fval be) g (fval x).
Proof.
  intros Gal Gbe Gx Hal Hbe Hx Hbx Hg S1 S2 S3 S4 S5. pose proof (bpow_gt_0 radix2 (-600)) as B6. pose proof uro_b as U. pose proof (au_b a Ha) as A. pose proof (Kg_b a Ha) as K.
  apply is_gamma_euler in Hg; [|lra]. destruct (gamma_near pw E a Ha HL al (fval al) g Gal) as (v & Ev & Nv); [|exact Hal|exact Hg|].
  { rewrite Rminus_eq_0, Rabs_R0. apply Rmult_le_pos; lra. }
  pose proof (ln_size x Gx Hx) as Lx. pose proof (ln_size be Gbe Hbe) as Lb. set (lx := Rabs (ln (fval x))) in *. set (e1 := Rabs (fval al - 1)).
  assert (E1 : 0 <= e1 <= 141) by (unfold e1; split; [apply Rabs_pos|apply Rabs_le; lra]). pose proof (Rabs_pos (ln (fval x)) : 0 <= lx) as L0.
  assert (EL : 0 <= e1 * lx <= 141 * 1074) by (split; [apply Rmult_le_pos; lra|apply Rmult_le_compat; lra]).
  assert (UE : 0 <= uro * (e1 * lx) <= / 1000000000000000 * (141 * 1074)) by (split; [apply Rmult_le_pos; lra|apply Rmult_le_compat; lra]).
  assert (P1 : fnear au (tpow be al) (Rpower (fval be) (fval al))).
  { eapply fnear_le; [apply (pow_fnear be al 0 (fval be) (fval al) 0 (exact_near be Gbe Hbe) Gal); [rewrite Rminus_eq_0, Rabs_R0; lra|lra|lra| |exact S1]|]; lra. }
  pose proof (fnear_div _ _ _ _ _ _ P1 Nv ltac:(lra) ltac:(lra) ltac:(lra) (safe_rng _ S2)) as P2.
  destruct (sub_one al Gal) as (Gm & Em). { apply Rabs_le. lra. } fold e1 in Em.
  assert (P3 : fnear (au + uro * (e1 * lx)) (tpow x (sub al one)) (Rpower (fval x) (fval al - 1))).
  { eapply fnear_le; [apply (pow_fnear x (sub al one) 0 (fval x) (fval al - 1) (uro * e1) (exact_near x Gx Hx) Gm Em); [lra|apply Rmult_le_pos; lra| |exact S3]|]; fold lx; lra. }
  pose proof (fnear_mul _ _ _ _ _ _ P2 P3 ltac:(lra) ltac:(lra) ltac:(lra) (safe_rng _ S4)) as P4.
  destruct (fneg_good be Gbe) as ((Vn & Fn) & En). destruct Gx as (Vx & Fx). pose proof big23 as B23. assert (BX : 0 < fval be * fval x) by (apply Rmult_lt_0_compat; assumption).
  assert (AB : Rabs (fval (neg be) * fval x) = fval be * fval x) by (rewrite En, <- Ropp_mult_distr_l, Rabs_Ropp; apply Rabs_pos_eq; lra).
  destruct (fmul_ok (neg be) x Vn Vx Fn Fx) as (Vm & Fm & Er); [rewrite AB; lra|]. rewrite AB, En, <- Ropp_mult_distr_l in Er.
  assert (UB : 0 <= uro * (fval be * fval x) <= / 1000000000000000 * 699) by (split; [apply Rmult_le_pos; lra|apply Rmult_le_compat; lra]).
  assert (ET : eta64 <= uro * / 1000). { eapply Rle_trans; [exact eta_uro_2|]. apply Rmult_le_compat_l; [lra|]. apply Rle_trans with (bpow radix2 (-10)); [apply bpow_le; lia|]. change (bpow radix2 (-10)) with (/ 1024). lra. }
  pose proof (exp_fnear (mul (neg be) x) (- (fval be * fval x)) (uro * (fval be * fval x) + eta64) (conj Vm Fm) Er ltac:(lra) ltac:(rewrite Rabs_Ropp, Rabs_pos_eq by lra; lra)) as P5.
  assert (ET0 : 0 <= eta64) by (unfold eta64; apply bpow_ge_0).
  pose proof (fnear_mul _ _ _ _ _ _ P4 P5 ltac:(lra) ltac:(lra) ltac:(lra) (safe_rng _ S5)) as (Gr & Nr).
  exists (mul (mul (div (tpow be al) v) (tpow x (sub al one))) (texp (mul (neg be) x))). split; [|split; [exact Gr|]].
  { unfold gammad_pdf. rewrite (pos_leb x (conj Vx Fx) Hx). transitivity (bind (Ret v) (fun g0 => Ret (mul (mul (div (tpow be al) g0) (tpow x (sub al one))) (texp (mul (neg be) x))))); [|reflexivity]. rewrite <- Ev. reflexivity. }
  eapply Rle_trans; [eapply rel_near; [|exact Nr]; lra|]. apply Rmult_le_compat_r; [left; exact (safe_pos _ S5)|]. unfold Kg. fold e1 lx. lra.
Qed.

(** ** The chi-square distribution *)
Lemma eta_small : 0 <= eta64 <= uro * / 1000000.
Proof. split; [unfold eta64; apply bpow_ge_0|]. pose proof uro_b. eapply Rle_trans; [exact eta_uro_2|]. apply Rmult_le_compat_l; [lra|]. apply Rle_trans with (bpow radix2 (-20)); [apply bpow_le; lia|]. change (bpow radix2 (-20)) with (/ 1048576). lra. Qed.
Lemma div_two (y : f64) : fgood y -> Rabs (fval y) <= 100000 -> fgood (div y (lit 2 1)) /\ Rabs (fval (div y (lit 2 1)) - fval y / 2) <= uro * Rabs (fval y / 2) + eta64.
Proof.
  intros (V & F) H. destruct num2 as ((V2 & F2) & E2). pose proof big23 as B23. destruct (fdiv_ok y (lit 2 1) V V2 F F2) as (Vs & Fs & Es); [lra| |].
  { rewrite E2. unfold Rdiv. rewrite Rabs_mult, (Rabs_pos_eq (/ 2)) by lra. lra. }
  rewrite E2 in Es. split; [split; assumption|exact Es].
Qed.
Lemma ln_two : 0 < ln 2 <= 1.
Proof. split; [rewrite <- ln_1; apply ln_increasing; lra|]. rewrite <- (ln_exp 1). apply ln_mono; [lra|]. pose proof (exp_ineq1_le 1). lra. Qed.
Theorem chi_pdf_f64 fuel k (x : f64) g d : (k <= 282)%nat -> chi_new (T := f64) k = Ret d -> fgood x -> 0 < fval x <= 1398 -> is_gamma (INR k / 2) g ->
  safe (Rpower 2 (INR k / 2) * g) -> safe (/ (Rpower 2 (INR k / 2) * g)) -> safe (Rpower (fval x) (INR k / 2 - 1)) ->
  safe (Rpower (fval x) (INR k / 2 - 1) * exp (- (fval x / 2))) -> safe (chi_density (INR k) g (fval x)) ->
  exists v, chi_pdf (Sp := impl_special fuel) d x = Ret v /\ fgood v /\
  Rabs (fval v - chi_density (INR k) g (fval x)) <= (36 / 10000000000000 + (9 * a + 5020 + INR k + 2 * INR k * Rabs (ln (fval x)) + fval x) * uro) * chi_density (INR k) g (fval x).
Proof.
  intros Hk Hd Gx Hx Hg S1 S2 S3 S4 S5. pose proof uro_b as U. pose proof (au_b a Ha) as A. pose proof (Kg_b a Ha) as K. pose proof eta_small as ET. pose proof ln_two as L2.
  destruct (of_u_ok k ltac:(lia)) as (Vk & Fk & Ek). destruct num1 as ((V1 & F1) & E1).
  assert (Ed : d = mkChi (of_u k) /\ 1 <= INR k <= 282).
  { unfold chi_new in Hd. rewrite (fltb_val _ _ Vk V1 Fk F1), Ek, E1 in Hd. revert Hd. case Rlt_bool_spec; intros HH Hd; [discriminate|]. injection Hd as <-. split; [reflexivity|]. split; [lra|].
    rewrite INR_IZR_INZ. apply IZR_le. lia. }
  destruct Ed as (-> & Bk). clear Hd. set (h := INR k / 2) in *. assert (Hh : 1 / 2 <= h <= 141) by (unfold h; lra). assert (Kh : INR k = 2 * h) by (unfold h; lra).
  destruct (div_two (of_u k) (conj Vk Fk)) as (Gz & Ez); [rewrite Ek, Rabs_pos_eq; lra|]. rewrite Ek in Ez. fold h in Ez. rewrite (Rabs_pos_eq h) in Ez by lra. set (z := div (of_u k) (lit 2 1) : f64) in *.
  assert (UH : uro * (1 / 2) <= uro * h <= uro * 141) by (split; apply Rmult_le_compat_l; lra).
  assert (Dz : Rabs (fval z - h) <= 101 / 100 * uro * h) by lra.
  apply is_gamma_euler in Hg; [|lra]. destruct (gamma_near pw E a Ha HL z h g Gz Dz) as (v & Ev & Nv); [|exact Hg|].
  { split; [|lra]. apply Rle_trans with (bpow radix2 (-1)); [apply bpow_le; lia|change (bpow radix2 (-1)) with (/ 2); lra]. }
  destruct num2 as (G2 & E2). pose proof Gx as (Vx & Fx). pose proof (ln_size x Gx ltac:(lra)) as Lx. set (lx := Rabs (ln (fval x))) in *. pose proof (Rabs_pos (ln (fval x)) : 0 <= lx) as L0.
  assert (N2 : fnear 0 (lit 2 1) 2) by (rewrite <- E2; apply exact_near; [exact G2|lra]).
  assert (P2s : safe (Rpower 2 h)).
  { unfold safe, Rpower. rewrite !bpow_exp. change (IZR radix2) with 2. split; apply exp_mono; [apply Rle_trans with 0; [|apply Rmult_le_pos; lra]; lra|apply Rmult_le_compat_r; lra]. }
  assert (UHL : 0 <= 101 / 100 * uro * h * ln 2 <= 101 / 100 * uro * h * 1) by (split; [apply Rmult_le_pos; lra|apply Rmult_le_compat_l; lra]).
  assert (P1 : fnear (au + 101 / 100 * uro * h) (tpow (lit 2 1) z) (Rpower 2 h)).
  { eapply fnear_le; [apply (pow_fnear (lit 2 1) z 0 2 h (101 / 100 * uro * h) N2 Gz Dz); [lra|lra| |exact P2s]|]; rewrite (Rabs_pos_eq (ln 2)) by lra; rewrite ?Rplus_0_r, ?Rmult_0_r; lra. }
  pose proof (fnear_mul _ _ _ _ _ _ P1 Nv ltac:(lra) ltac:(lra) ltac:(lra) (safe_rng _ S1)) as P2.
  assert (N1 : fnear 0 (one : f64) 1) by (split; [split; assumption|rewrite E1; apply near_refl; lra]).
  assert (S2' : safe (1 / (Rpower 2 h * g))) by (unfold Rdiv; rewrite Rmult_1_l; exact S2).
  pose proof (fnear_div _ _ _ _ _ _ N1 P2 ltac:(lra) ltac:(lra) ltac:(lra) (safe_rng _ S2')) as P3.
  assert (Rz : h - 2 * (uro * h) <= fval z <= h + 2 * (uro * h)) by (revert Dz; unfold Rabs; destruct Rcase_abs; lra).
  destruct (sub_one z Gz) as (Gm & Em). { apply Rabs_le. lra. }
  assert (Zm : Rabs (fval z - 1) <= h + 2 * (uro * h)) by (apply Rabs_le; lra).
  assert (UU : uro * Rabs (fval z - 1) <= uro * (h + 2 * (uro * h))) by (apply Rmult_le_compat_l; lra).
  assert (U2 : 0 <= uro * (uro * h) <= / 1000000 * (uro * h)) by (split; [apply Rmult_le_pos; lra|apply Rmult_le_compat_r; lra]).
  assert (Dm : Rabs (fval (sub z one) - (h - 1)) <= 202 / 100 * uro * h).
  { replace (fval (sub z one) - (h - 1)) with ((fval (sub z one) - (fval z - 1)) + (fval z - h)) by ring. eapply Rle_trans; [apply Rabs_triang|]. lra. }
  assert (HLx : 0 <= 202 / 100 * uro * h * lx <= 202 / 100 * uro * 141 * 1074) by (split; [apply Rmult_le_pos; lra|apply Rmult_le_compat; lra]).
  assert (P4 : fnear (au + 202 / 100 * uro * h * lx) (tpow x (sub z one)) (Rpower (fval x) (h - 1))).
  { eapply fnear_le; [apply (pow_fnear x (sub z one) 0 (fval x) (h - 1) (202 / 100 * uro * h) (exact_near x Gx ltac:(lra)) Gm Dm); [lra|lra| |exact S3]|]; fold lx; rewrite ?Rplus_0_r, ?Rmult_0_r; lra. }
  destruct (fneg_good x Gx) as (Gn & En). destruct (div_two (neg x) Gn) as (Ge & Ee); [rewrite En, Rabs_Ropp, Rabs_pos_eq; lra|]. rewrite En in Ee.
  assert (AX : Rabs (- fval x / 2) = fval x / 2) by (unfold Rdiv; rewrite <- Ropp_mult_distr_l, Rabs_Ropp, Rabs_pos_eq; lra). rewrite AX in Ee. replace (- fval x / 2) with (- (fval x / 2)) in Ee by field.
  assert (UX : 0 <= uro * (fval x / 2) <= / 1000000000000000 * 699) by (split; [apply Rmult_le_pos; lra|apply Rmult_le_compat; lra]).
  pose proof (exp_fnear (div (neg x) (lit 2 1)) (- (fval x / 2)) _ Ge Ee ltac:(lra) ltac:(rewrite Rabs_Ropp, Rabs_pos_eq; lra)) as P5.
  pose proof (fnear_mul _ _ _ _ _ _ P4 P5 ltac:(lra) ltac:(lra) ltac:(lra) (safe_rng _ S4)) as P6.
  assert (EQ : chi_density (INR k) g (fval x) = 1 / (Rpower 2 h * g) * (Rpower (fval x) (h - 1) * exp (- (fval x / 2)))) by (unfold chi_density; fold h; unfold Rdiv; rewrite Rmult_1_l; reflexivity).
  rewrite EQ in *. pose proof (fnear_mul _ _ _ _ _ _ P3 P6 ltac:(lra) ltac:(lra) ltac:(lra) (safe_rng _ S5)) as (Gr & Nr).
  exists (mul (div one (mul (tpow (lit 2 1) z) v)) (mul (tpow x (sub z one)) (texp (div (neg x) (lit 2 1))))). split; [|split; [exact Gr|]].
  { unfold chi_pdf. rewrite (pos_ltb x Gx ltac:(lra)).
    transitivity (bind (Ret v) (fun g0 => Ret (mul (div one (mul (tpow (lit 2 1) z) g0)) (mul (tpow x (sub z one)) (texp (div (neg x) (lit 2 1))))))); [|reflexivity]. rewrite <- Ev. reflexivity. }
  eapply Rle_trans; [eapply rel_near; [|exact Nr]; lra|]. apply Rmult_le_compat_r; [left; exact (safe_pos _ S5)|]. unfold Kg. rewrite Kh. fold lx. lra.
Qed.

(** ** The beta distribution *)
Theorem beta_pdf_f64 fuel (p q x : f64) B ga gb : fgood p -> fgood q -> fgood x -> bpow radix2 (-600) <= fval p -> bpow radix2 (-600) <= fval q -> fval p + fval q <= 141 -> 0 < fval x < 1 ->
  euler_beta (fval p) (fval q) B -> is_gamma (fval p) ga -> is_gamma (fval q) gb -> safe (ga * gb) -> safe B ->
  safe (Rpower (fval x) (fval p - 1)) -> safe (Rpower (1 - fval x) (fval q - 1)) -> safe (Rpower (fval x) (fval p - 1) * Rpower (1 - fval x) (fval q - 1)) -> safe (beta_density (fval p) (fval q) B (fval x)) ->
  exists v, beta_pdf (Sp := impl_special fuel) (mkBeta p q) x = Ret v /\ fgood v /\
  Rabs (fval v - beta_density (fval p) (fval q) B (fval x))
    <= (105 / 10000000000000 + (18 * a + 15010 + 2 * Rabs (fval p - 1) * Rabs (ln (fval x)) + 2 * Rabs (fval q - 1) * (Rabs (ln (1 - fval x)) + 1)) * uro) * beta_density (fval p) (fval q) B (fval x).
Proof.
  intros Gp Gq Gx Hp Hq Hs Hx HB Hga Hgb S1 S2 S3 S4 S5 S6. pose proof (bpow_gt_0 radix2 (-600)) as B6. pose proof uro_b as U. pose proof (au_b a Ha) as A. pose proof (Kg_b a Ha) as K. pose proof big23 as B23.
  destruct (beta_near pw E a Ha HL p q B ga gb Gp Gq Hp Hq Hs HB Hga Hgb (safe_rng _ S1) (safe_rng _ S2)) as (v & Ev & Nv).
  pose proof Gx as (Vx & Fx). destruct num1 as ((V1 & F1) & E1). pose proof (ln_size x Gx ltac:(lra)) as Lx. set (lx := Rabs (ln (fval x))) in *. pose proof (Rabs_pos (ln (fval x)) : 0 <= lx) as L0.
  destruct (sub_one p Gp) as (Gm & Em). { apply Rabs_le. lra. } destruct (sub_one q Gq) as (Gn & En). { apply Rabs_le. lra. }
  set (e1 := Rabs (fval p - 1)) in *. set (e2 := Rabs (fval q - 1)) in *.
  assert (B1 : 0 <= e1 <= 141) by (unfold e1; split; [apply Rabs_pos|apply Rabs_le; lra]). assert (B2 : 0 <= e2 <= 141) by (unfold e2; split; [apply Rabs_pos|apply Rabs_le; lra]).
  assert (UE : 0 <= uro * e1 * lx <= / 1000000000000000 * 141 * 1074) by (split; [repeat apply Rmult_le_pos; lra|apply Rmult_le_compat; [apply Rmult_le_pos; lra|lra|apply Rmult_le_compat; lra|lra]]).
  assert (P1 : fnear (au + uro * e1 * lx) (tpow x (sub p one)) (Rpower (fval x) (fval p - 1))).
  { eapply fnear_le; [apply (pow_fnear x (sub p one) 0 (fval x) (fval p - 1) (uro * e1) (exact_near x Gx ltac:(lra)) Gm Em); [lra|apply Rmult_le_pos; lra| |exact S3]|]; fold lx; rewrite ?Rplus_0_r, ?Rmult_0_r; lra. }
  destruct (fsub_ok one x V1 Vx F1 Fx) as (Vw & Fw & Ew). { rewrite E1. apply Rabs_le. lra. } rewrite E1, (Rabs_pos_eq (1 - fval x)) in Ew by lra.
  assert (Nw : fnear (102 / 100 * uro) (sub one x) (1 - fval x)) by (split; [split; assumption|apply near_rel; [lra|lra|exact Ew]]).
  assert (W0 : 0 < fval (sub one x)) by exact (proj1 (near_pos _ _ _ (proj2 Nw))). pose proof (ln_size (sub one x) (conj Vw Fw) W0) as Lw. pose proof (near_ln _ _ _ (proj2 Nw)) as Dl.
  set (lw := Rabs (ln (1 - fval x))) in *. assert (Bw : 0 <= lw <= 1075).
  { unfold lw. split; [apply Rabs_pos|]. replace (ln (1 - fval x)) with (ln (fval (sub one x)) - (ln (fval (sub one x)) - ln (1 - fval x))) by ring. eapply Rle_trans; [apply Rabs_triang|]. rewrite Rabs_Ropp. lra. }
  assert (UE2 : 0 <= uro * e2 <= / 1000000000000000 * 141) by (split; [apply Rmult_le_pos; lra|apply Rmult_le_compat; lra]).
  assert (UE3 : 0 <= uro * e2 * (lw + 102 / 100 * uro) <= / 1000000000000000 * 141 * 1076) by (split; [apply Rmult_le_pos; lra|apply Rmult_le_compat; lra]).
  pose proof (pow_fnear (sub one x) (sub q one) (102 / 100 * uro) (1 - fval x) (fval q - 1) (uro * e2) Nw Gn En ltac:(lra) ltac:(lra) ltac:(fold lw e2; lra) S4) as P2. fold lw e2 in P2.
  pose proof (fnear_mul _ _ _ _ _ _ P1 P2 ltac:(lra) ltac:(lra) ltac:(lra) (safe_rng _ S5)) as P3.
  pose proof (fnear_div _ _ _ _ _ _ P3 Nv ltac:(lra) ltac:(lra) ltac:(lra) (safe_rng _ S6)) as (Gr & Nr).
  exists (div (mul (tpow x (sub p one)) (tpow (sub one x) (sub q one))) v). split; [|split; [exact Gr|]].
  { unfold beta_pdf. rewrite (pos_ltb x Gx ltac:(lra)), (fltb_val one x V1 Vx F1 Fx), E1, Rlt_bool_false by lra.
    transitivity (bind (Ret v) (fun g0 => Ret (div (mul (tpow x (sub p one)) (tpow (sub one x) (sub q one))) g0))); [|reflexivity]. rewrite <- Ev. reflexivity. }
  eapply Rle_trans; [eapply rel_near; [|exact Nr]; lra|]. apply Rmult_le_compat_r; [left; exact (safe_pos _ S6)|]. unfold Kg. fold lx lw e1 e2.
  assert (uro * e2 * (102 / 100 * uro) <= uro * e2 * / 1000) by (apply Rmult_le_compat_l; lra). lra.
Qed.

(** ** Student's t distribution *)
Theorem t_pdf_f64 fuel (n x : f64) g1 g2 : fgood n -> fgood x -> bpow radix2 (-10) <= fval n <= 280 -> fval x * fval x <= bpow radix2 1000 ->
  is_gamma ((fval n + 1) / 2) g1 -> is_gamma (fval n / 2) g2 -> safe (Rpower (1 + fval x * fval x / fval n) (- ((fval n + 1) / 2))) ->
  safe (g1 * Rpower (1 + fval x * fval x / fval n) (- ((fval n + 1) / 2))) -> safe (sqrt (fval n * PI) * g2) -> safe (t_density (fval n) g1 g2 (fval x)) ->
  exists v, td_pdf (Sp := impl_special fuel) (mkT n) x = Ret v /\ fgood v /\
  Rabs (fval v - t_density (fval n) g1 g2 (fval x))
    <= (70 / 10000000000000 + (13 * a + 10010 + 2 * (fval n + 1) * (ln (1 + fval x * fval x / fval n) + 1)) * uro) * t_density (fval n) g1 g2 (fval x).
Proof.
  intros Gn Gx Hn Hx Hg1 Hg2 S1 S2 S3 S4. pose proof uro_b as U. pose proof (au_b a Ha) as A. pose proof (Kg_b a Ha) as K. pose proof eta_small as ET. pose proof big23 as B23. pose proof big20 as B20. pose proof PI_up as PU.
  change (bpow radix2 (-10)) with (/ 1024) in Hn. destruct num1 as ((V1 & F1) & E1). pose proof Gn as (Vn & Fn). pose proof Gx as (Vx & Fx).
  set (h := (fval n + 1) / 2) in *. assert (Hh : 1 / 2 + / 2048 <= h <= 141) by (unfold h; lra). assert (UH : uro * (1 / 2) <= uro * h <= uro * 141) by (split; apply Rmult_le_compat_l; lra).
  destruct (fadd_ok n one Vn V1 Fn F1) as (Vs & Fs & Es). { rewrite E1. apply Rabs_le. lra. } rewrite E1, (Rabs_pos_eq (fval n + 1)) in Es by lra.
  assert (Rs : fval n + 1 - 2 * (uro * h) <= fval (add n one) <= fval n + 1 + 2 * (uro * h)) by (revert Es; unfold h, Rabs; destruct Rcase_abs; lra).
  destruct (div_two (add n one) (conj Vs Fs)) as (Gk & Ek); [rewrite Rabs_pos_eq; lra|]. set (k1 := div (add n one) (lit 2 1) : f64) in *.
  assert (Dk : Rabs (fval k1 - h) <= 205 / 100 * uro * h).
  { rewrite (Rabs_pos_eq (fval (add n one) / 2)) in Ek by lra. assert (uro * (fval (add n one) / 2) <= uro * (h + uro * h)) by (apply Rmult_le_compat_l; unfold h in *; lra).
    assert (uro * (uro * h) <= / 1000000 * (uro * h)) by (apply Rmult_le_compat_r; lra).
    replace (fval k1 - h) with ((fval k1 - fval (add n one) / 2) + (fval (add n one) - (fval n + 1)) / 2) by (unfold h; field). eapply Rle_trans; [apply Rabs_triang|].
    assert (Rabs ((fval (add n one) - (fval n + 1)) / 2) <= uro * h). { unfold Rdiv. rewrite Rabs_mult, (Rabs_pos_eq (/ 2)) by lra. unfold h. lra. } lra. }
  assert (Rk : h - 3 * (uro * h) <= fval k1 <= h + 3 * (uro * h)) by (revert Dk; unfold Rabs; destruct Rcase_abs; lra).
  apply is_gamma_euler in Hg1; [|lra]. apply is_gamma_euler in Hg2; [|lra].
  destruct (gamma_near_hi pw E a Ha HL k1 h g1 Gk ltac:(lra) ltac:(lra) ltac:(lra) Hg1) as (Ev1 & Nv1). set (v1 := @lanczos f64 F64_ops (PP pw) E k1) in *. 
  destruct (div_two n Gn) as (Gk2 & Ek2); [rewrite Rabs_pos_eq; lra|]. rewrite (Rabs_pos_eq (fval n / 2)) in Ek2 by lra. set (k2 := div n (lit 2 1) : f64) in *.
  assert (UN : uro * / 2048 <= uro * (fval n / 2)) by (apply Rmult_le_compat_l; lra).
  destruct (gamma_near pw E a Ha HL k2 (fval n / 2) g2 Gk2) as (v2 & Ev2 & Nv2); [lra| |exact Hg2|].
  { split; [|lra]. apply Rle_trans with (bpow radix2 (-11)); [apply bpow_le; lia|change (bpow radix2 (-11)) with (/ 2048); lra]. }
  (* the base 1 + x^2/n *)
  pose proof (Rle_0_sqr (fval x) : 0 <= fval x * fval x) as X2. assert (BX : 1024 * 4 * bpow radix2 1000 <= bpow radix2 1023).
  { change 1023%Z with (23 + 1000)%Z. rewrite bpow_plus. pose proof (bpow_gt_0 radix2 1000). change (bpow radix2 23) with 8388608. lra. }
  pose proof (bpow_gt_0 radix2 1000) as B1000. assert (B1000' : 1 <= bpow radix2 1000) by (change 1 with (bpow radix2 0); apply bpow_le; lia).
  destruct (fmul_ok x x Vx Vx Fx Fx) as (Vm & Fm & Em). { rewrite Rabs_pos_eq by exact X2. lra. } rewrite (Rabs_pos_eq (fval x * fval x)) in Em by exact X2.
  set (q := fval x * fval x / fval n) in *. assert (In : 0 < / fval n <= 1024). { split; [apply Rinv_0_lt_compat; lra|]. replace 1024 with (/ / 1024) by field. apply Rinv_le_contravar; lra. }
  assert (Q0 : 0 <= q) by (unfold q, Rdiv; apply Rmult_le_pos; lra). assert (Qx : q <= 1024 * bpow radix2 1000). { unfold q, Rdiv. rewrite (Rmult_comm 1024). apply Rmult_le_compat; lra. }
  set (m := fval (mul x x)) in *. assert (Qm : Rabs (m / fval n - q) <= uro * q + 1024 * eta64).
  { replace (m / fval n - q) with ((m - fval x * fval x) * / fval n) by (unfold q; field; lra). rewrite Rabs_mult, (Rabs_pos_eq (/ fval n)) by lra.
    apply Rle_trans with ((uro * (fval x * fval x) + eta64) * / fval n); [apply Rmult_le_compat_r; lra|]. assert (eta64 * / fval n <= eta64 * 1024) by (apply Rmult_le_compat_l; lra). unfold q, Rdiv. lra. }
  assert (UQ : 0 <= uro * q <= / 1000000 * q) by (split; [apply Rmult_le_pos; lra|apply Rmult_le_compat_r; lra]).
  assert (Am : Rabs (m / fval n) <= q + uro * q + uro * / 900). { replace (m / fval n) with (q + (m / fval n - q)) by ring. eapply Rle_trans; [apply Rabs_triang|]. rewrite (Rabs_pos_eq q) by exact Q0. lra. }
  destruct (fdiv_ok (mul x x) n Vm Vn Fm Fn) as (Vq & Fq & Eq); [lra|fold m; lra|]. fold m in Eq. set (qh := fval (div (mul x x) n)) in *.
  assert (UA : uro * Rabs (m / fval n) <= uro * (q + uro * q + uro * / 900)) by (apply Rmult_le_compat_l; lra).
  assert (UUQ : uro * (uro * q) <= / 1000000 * (uro * q)) by (apply Rmult_le_compat_r; lra). assert (UU : uro * (uro * / 900) <= / 1000000 * uro) by (apply Rle_trans with (/ 1000000 * (uro * / 900)); [apply Rmult_le_compat_r; lra|lra]).
  assert (Dq : Rabs (qh - q) <= 201 / 100 * (uro * q) + uro * / 800). { replace (qh - q) with ((qh - m / fval n) + (m / fval n - q)) by ring. eapply Rle_trans; [apply Rabs_triang|]. lra. }
  assert (Rq : - (uro * / 800) <= qh <= q + 201 / 100 * (uro * q) + uro * / 800) by (revert Dq; unfold Rabs; destruct Rcase_abs; lra).
  destruct (fadd_ok one (div (mul x x) n) V1 Vq F1 Fq) as (Vt & Ft & Et). { fold qh. rewrite E1, Rabs_pos_eq by lra. lra. } fold qh in Et. rewrite E1, (Rabs_pos_eq (1 + qh)) in Et by lra.
  set (T := 1 + q) in *. assert (UT : uro * (1 + qh) <= uro * (T + 201 / 100 * (uro * q) + uro * / 800)) by (apply Rmult_le_compat_l; unfold T; lra).
  assert (Nt : fnear (32 / 10 * uro) (add one (div (mul x x) n)) T).
  { split; [split; assumption|]. apply (near_le (102 / 100 * (31 / 10 * uro))); [|lra]. apply near_rel; [lra|unfold T; lra|].
    replace (fval (add one (div (mul x x) n)) - T) with ((fval (add one (div (mul x x) n)) - (1 + qh)) + (qh - q)) by (unfold T; ring). eapply Rle_trans; [apply Rabs_triang|]. unfold T in *. lra. }
  set (th := add one (div (mul x x) n) : f64) in *. assert (T0 : 0 < fval th) by exact (proj1 (near_pos _ _ _ (proj2 Nt))).
  pose proof (ln_size th (proj1 Nt) T0) as Lt. pose proof (near_ln _ _ _ (proj2 Nt)) as Dl. set (lt := ln T) in *.
  assert (L0 : 0 <= lt) by (unfold lt; rewrite <- ln_1; apply ln_mono; unfold T; lra).
  assert (L1 : lt <= 1075). { apply Rle_trans with (Rabs lt); [apply Rle_abs|]. unfold lt. replace (ln T) with (ln (fval th) - (ln (fval th) - ln T)) by ring. eapply Rle_trans; [apply Rabs_triang|]. rewrite Rabs_Ropp. fold lt. lra. }
  destruct (fneg_good k1 Gk) as (Gm & Enm). assert (De : Rabs (fval (neg k1) - - h) <= 205 / 100 * uro * h) by (rewrite Enm; replace (- fval k1 - - h) with (- (fval k1 - h)) by ring; now rewrite Rabs_Ropp).
  assert (HLt : 0 <= 205 / 100 * uro * h * lt <= 205 / 100 * / 1000000000000000 * 141 * 1075) by (split; [repeat apply Rmult_le_pos; lra|apply Rmult_le_compat; [lra|lra|apply Rmult_le_compat; lra|lra]]).
  assert (UUH : 205 / 100 * uro * h * (32 / 10 * uro) <= 205 / 100 * uro * h * / 1000) by (apply Rmult_le_compat_l; lra).
  assert (P1 : fnear (au + (205 / 100 * uro * h * lt + 325 / 100 * uro * h)) (tpow th (neg k1)) (Rpower T (- h))).
  { eapply fnear_le; [apply (pow_fnear th (neg k1) (32 / 10 * uro) T (- h) (205 / 100 * uro * h) Nt Gm De); [lra|lra| |exact S1]|]; fold lt; rewrite Rabs_Ropp, (Rabs_pos_eq h), (Rabs_pos_eq lt) by lra; lra. }
  pose proof (fnear_mul _ _ _ _ _ _ Nv1 P1 ltac:(lra) ltac:(lra) ltac:(lra) (safe_rng _ S2)) as P2.
  (* the denominator *)
  pose proof tiny40 as T40. assert (NPr : / 1024 * 3 <= fval n * PI <= 280 * (315 / 100)) by (split; apply Rmult_le_compat; lra).
  pose proof (fnear_mul _ _ _ _ _ _ (exact_near n Gn ltac:(lra)) (pi_near pw E a HL) ltac:(lra) ltac:(lra) ltac:(lra) ltac:(lra)) as P3.
  destruct num12 as (Ghf & Ehf). assert (ES : Rpower (fval n * PI) (/ 2) = sqrt (fval n * PI)) by (apply Rpower_sqrt; lra).
  assert (SQ : / 64 <= sqrt (fval n * PI) <= 32).
  { split; [replace (/ 64) with (sqrt (/ 64 * / 64)) by (apply sqrt_square; lra)|replace 32 with (sqrt (32 * 32)) by (apply sqrt_square; lra)]; apply sqrt_le_1_alt; lra. }
  assert (SS : safe (Rpower (fval n * PI) (/ 2))).
  { rewrite ES. split; [apply Rle_trans with (bpow radix2 (-6)); [apply bpow_le; lia|change (bpow radix2 (-6)) with (/ 64); lra]|apply Rle_trans with (bpow radix2 5); [change (bpow radix2 5) with 32; lra|apply bpow_le; lia]]. }
  assert (P4 : fnear (au + 13 / 10 * uro) (tsqrt (mul n tpi)) (sqrt (fval n * PI))).
  { rewrite <- ES. assert (Hf : S754_finite false 4503599627370496 (-53) = lit 1 2) by (vm_compute; reflexivity). change (tsqrt (mul n tpi)) with (pw (mul n tpi) (S754_finite false 4503599627370496 (-53))). rewrite Hf.
    assert (H0 : Rabs (fval (lit 1 2 : f64) - / 2) <= 0) by (rewrite Ehf, Rminus_eq_0, Rabs_R0; lra).
    eapply fnear_le; [apply (pow_fnear (mul n tpi) (lit 1 2) _ (fval n * PI) (/ 2) 0 P3 Ghf H0); [lra|lra| |exact SS]|]; rewrite (Rabs_pos_eq (/ 2)) by lra; lra. }
  pose proof (fnear_mul _ _ _ _ _ _ P4 Nv2 ltac:(lra) ltac:(lra) ltac:(lra) (safe_rng _ S3)) as P5.
  pose proof (fnear_div _ _ _ _ _ _ P2 P5 ltac:(lra) ltac:(lra) ltac:(lra) (safe_rng _ S4)) as (Gr & Nr).
  exists (div (mul v1 (tpow th (neg k1))) (mul (tsqrt (mul n tpi)) v2)). split; [|split; [exact Gr|]].
  { transitivity (bind (Ret v1) (fun g1 => bind (Ret v2) (fun g2 => Ret (div (mul g1 (tpow th (neg k1))) (mul (tsqrt (mul n tpi)) g2))))); [|reflexivity]. rewrite <- Ev1, <- Ev2. reflexivity. }
  eapply Rle_trans; [eapply rel_near; [|exact Nr]; lra|]. apply Rmult_le_compat_r; [left; exact (safe_pos _ S4)|]. unfold Kg. fold lt. replace (fval n + 1) with (2 * h) by (unfold h; field). lra.
Qed.
End Libm.
