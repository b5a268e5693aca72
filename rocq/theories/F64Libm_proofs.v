(** Correctly rounded elementary functions: the accuracy hypotheses about the functions of the platform can be met. *)
From Coq Require Import Arith Lia List Bool ZArith Reals Lra Psatz SpecFloat.
From Flocq Require Import Core IEEE754.BinarySingleNaN.
From Verif Require Import Outcome Scalar RealOps Elem_model Complex_model F64_spec F64Cplx_spec
  F64Flocq F64Err_proofs F64Grid_proofs F64QR_proofs F64Cplx_proofs.
Local Open Scope R_scope.

(** The float nearest to a real number. *)
Definition ofR (y : R) : f64 :=
  B2SF (binary_normalize 53 1024 Hprec53 Hmax53 mode_NE (Ztrunc (scaled_mantissa radix2 (FLT_exp (-1074) 53) (rnd64 y))) (Generic_fmt.cexp radix2 (FLT_exp (-1074) 53) (rnd64 y)) false).
Lemma ofR_ok y : Rabs y <= bpow radix2 1023 -> fgood (ofR y) /\ fval (ofR y) = rnd64 y.
Proof.
  intro H. unfold ofR. set (m := Ztrunc _). set (e := Generic_fmt.cexp _ _ _).
  assert (G : generic_format radix2 (FLT_exp (-1074) 53) (rnd64 y)) by (apply generic_format_round; [apply FLT_exp_valid; reflexivity|apply valid_rnd_N]).
  assert (E : F2R (Float radix2 m e) = rnd64 y) by (symmetry; exact G).
  pose proof (binary_normalize_correct 53 1024 Hprec53 Hmax53 mode_NE m e false) as B. cbv zeta in B. rewrite rnd_eq, E in B.
  rewrite (round_generic _ _ _ _ G) in B.
  assert (L : Rlt_bool (Rabs (rnd64 y)) (bpow radix2 1024) = true) by (apply Rlt_bool_true; exact (no_ov y H)).
  rewrite L in B. destruct B as (B1 & B2 & _). split; [split; [apply fvalid_B2SF|rewrite ffin_B; exact B2]|]. rewrite fval_B. exact B1.
Qed.
Lemma ofR_err y : Rabs y <= bpow radix2 1023 -> fgood (ofR y) /\ Rabs (fval (ofR y) - y) <= uro * Rabs y + eta64.
Proof. intro H. destruct (ofR_ok y H) as (G & E). split; [exact G|]. rewrite E. apply rnd_err1. Qed.
(** Elementary functions that are correctly rounded. *)
Definition exact_eops : EOps f64 := {|
  texp x := ofR (exp (fval x)); tln x := ofR (ln (fval x)); tsin x := ofR (sin (fval x)); tcos x := ofR (cos (fval x)); ttan x := ofR (tan (fval x));
  tasin x := ofR (asin (fval x)); tacos x := ofR (acos (fval x)); tatan x := ofR (atan (fval x)); tatan2 x y := ofR (R_atan2 (fval x) (fval y));
  tsinh x := ofR (sinh (fval x)); tcosh x := ofR (cosh (fval x)); ttanh x := ofR (tanh (fval x));
  tasinh x := ofR (arcsinh (fval x)); tacosh x := ofR (ln (fval x + sqrt (fval x * fval x - 1))); tatanh x := ofR (ln ((1 + fval x) / (1 - fval x)) / 2);
  tpi := ofR PI; te := ofR (exp 1) |}.
Lemma eta_uro_2 : eta64 <= uro * bpow radix2 (-1022).
Proof. unfold eta64, uro. rewrite <- bpow_plus. apply bpow_le. lia. Qed.
Lemma exp_acc_ex : exp_acc 2 (@texp f64 exact_eops).
Proof.
  intros x _ Hx. assert (L : - 700 <= fval x <= 700) by (revert Hx; unfold Rabs; destruct Rcase_abs; lra).
  assert (mono : forall a b, a <= b -> exp a <= exp b) by (intros a b [H| ->]; [left; now apply exp_increasing|lra]).
  pose proof (mono _ _ (proj2 L)) as L1. pose proof (mono _ _ (proj1 L)) as L2. pose proof exp_700 as E7. pose proof (exp_pos (fval x)) as X0. pose proof uro_pos as U.
  assert (B : bpow radix2 (-1020) <= exp (fval x)).
  { eapply Rle_trans; [|exact L2]. change (-700) with (IZR (- (700))). rewrite opp_IZR, exp_Ropp. change (-1020)%Z with (- (1020))%Z. rewrite bpow_opp. apply Rinv_le_contravar; [apply exp_pos|exact E7]. }
  assert (A : Rabs (exp (fval x)) = exp (fval x)) by (apply Rabs_pos_eq; lra).
  destruct (ofR_err (exp (fval x))) as (G & H). { rewrite A. eapply Rle_trans; [exact L1|]. eapply Rle_trans; [exact E7|]. apply bpow_le. lia. }
  split; [exact G|]. rewrite A in H. pose proof eta_uro_2 as E. change (texp x) with (ofR (exp (fval x))).
  assert (uro * bpow radix2 (-1022) <= uro * exp (fval x)). { apply Rmult_le_compat_l; [lra|]. eapply Rle_trans; [|exact B]. apply bpow_le. lia. } lra.
Qed.
Lemma trig_acc_ex F : (forall t, Rabs (F t) <= 1) -> trig_acc 2 (fun x => ofR (F (fval x))) F.
Proof.
  intros HF x _. pose proof (HF (fval x)) as H1. assert (B : 1 <= bpow radix2 1023) by (change 1 with (bpow radix2 0); apply bpow_le; lia).
  destruct (ofR_err (F (fval x))) as (G & H); [lra|]. split; [exact G|]. pose proof uro_pos as U. pose proof eta_uro_2 as E.
  assert (uro * bpow radix2 (-1022) <= uro * 1) by (apply Rmult_le_compat_l; [lra|change 1 with (bpow radix2 0); apply bpow_le; lia]).
  assert (uro * Rabs (F (fval x)) <= uro * 1) by (apply Rmult_le_compat_l; lra). lra.
Qed.
Lemma sin_le_1 t : Rabs (sin t) <= 1. Proof. apply Rabs_le, SIN_bound. Qed.
Lemma cos_le_1 t : Rabs (cos t) <= 1. Proof. apply Rabs_le, COS_bound. Qed.
Lemma fgood_range x : fgood x -> Rabs (fval x) < bpow radix2 1024 /\ (0 < fval x -> bpow radix2 (-1074) <= fval x).
Proof.
  intros (V & F). split.
  - rewrite <- (B2SF_toB x V) in *. rewrite fval_B. apply abs_B2R_lt_emax.
  - intro H. apply (generic_format_ge_bpow radix2 (FLT_exp (-1074) 53)); [intro e; unfold FLT_exp; lia|exact H|now apply fmt_fval].
Qed.
Lemma ln_bpow e : ln (bpow radix2 e) = IZR e * ln 2.
Proof.
  rewrite bpow_exp, ln_exp. reflexivity.
Qed.
Lemma ln_range x : fgood x -> 0 < fval x -> Rabs (ln (fval x)) <= 1074 * ln 2.
Proof.
  intros G H. destruct (fgood_range x G) as (B1 & B2). specialize (B2 H). rewrite (Rabs_pos_eq (fval x)) in B1 by lra.
  assert (mono : forall a b, 0 < a -> a <= b -> ln a <= ln b) by (intros a b Ha [Hb| ->]; [left; now apply ln_increasing|lra]).
  pose proof (mono _ _ H (Rlt_le _ _ B1)) as L1. pose proof (mono _ _ (bpow_gt_0 radix2 (-1074)) B2) as L2. rewrite ln_bpow in L1, L2.
  pose proof (ln_lt_2) as L. assert (0 < ln 2) by lra. apply Rabs_le. lra.
Qed.
Lemma ln_2_le_1 : ln 2 <= 1.
Proof. rewrite <- (ln_exp 1). left. apply ln_increasing; [lra|]. pose proof (exp_ineq1 1). lra. Qed.
Lemma ln_acc_ex : ln_acc 1 (@tln f64 exact_eops).
Proof.
  intros x G H. pose proof (ln_range x G H) as R. pose proof ln_2_le_1 as L. assert (B : 2048 <= bpow radix2 1023) by (change 2048 with (bpow radix2 11); apply bpow_le; lia).
  destruct (ofR_err (ln (fval x))) as (G1 & H1); [lra|]. split; [exact G1|]. rewrite Rmult_1_l. exact H1.
Qed.
