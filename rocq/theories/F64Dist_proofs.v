(** The uniform and the exponential distribution in binary64. *)
From Coq Require Import ZArith Reals Lra Lia Bool Arith List SpecFloat.
From Flocq Require Import Core IEEE754.BinarySingleNaN.
From Verif Require Import Outcome Scalar RealOps Elem_model Int_model Ode_model Special_model Stat_model F64Flocq F64_spec F64Err_proofs F64Grid_proofs F64Euler_proofs F64QR_proofs F64Cplx_spec F64Cplx_proofs F64Libm_proofs.
Import ListNotations.
Local Open Scope R_scope.

Lemma rnd_le x y : x <= y -> rnd64 x <= rnd64 y.
Proof. intro H. apply round_le; [typeclasses eauto|typeclasses eauto|exact H]. Qed.
Lemma fmt_bp e : (-1074 <= e)%Z -> fmt64 (bpow radix2 e).
Proof. intro H. apply generic_format_bpow. unfold FLT_exp. lia. Qed.
Lemma rnd_bp e : (-1074 <= e)%Z -> rnd64 (bpow radix2 e) = bpow radix2 e.
Proof. intro H. apply round_generic; [typeclasses eauto|]. apply fmt_bp, H. Qed.
Lemma rnd_1 : rnd64 1 = 1. Proof. exact (rnd_bp 0 ltac:(lia)). Qed.
Lemma V1f : fvalid (one : f64). Proof. reflexivity. Qed.
Lemma V0f : fvalid (zero : f64). Proof. reflexivity. Qed.
Lemma bp_1023 : bpow radix2 1022 + bpow radix2 1022 = bpow radix2 1023.
Proof. change 1023%Z with (1 + 1022)%Z. rewrite bpow_plus. simpl (bpow radix2 1). lra. Qed.
Lemma two_ok : fgood (lit 2 1) /\ fval (lit 2 1) = 2.
Proof. split; [split; reflexivity|]. vm_compute (lit 2 1 : f64). unfold fval, SF2R, F2R. simpl. lra. Qed.

(** ** The uniform distribution *)
Section Uniform.
Variables a b : f64.
Hypothesis Ga : fgood a.
Hypothesis Gb : fgood b.
Hypothesis Ba : Rabs (fval a) <= bpow radix2 1022.
Hypothesis Bb : Rabs (fval b) <= bpow radix2 1022.
Hypothesis Hab : fval a < fval b.
Let A := fval a. Let B := fval b.
Lemma len_ok : fgood (sub b a) /\ fval (sub b a) = rnd64 (B - A) /\ bpow radix2 (-1074) <= fval (sub b a) /\ Rabs (fval (sub b a) - (B - A)) <= uro * (B - A).
Proof.
  destruct Ga as (Va & Fa), Gb as (Vb & Fb). fold A in Ba, Hab. fold B in Bb, Hab.
  assert (R : Rabs (B - A) <= bpow radix2 1023). { rewrite <- bp_1023. unfold Rminus. eapply Rle_trans; [apply Rabs_triang|]. rewrite Rabs_Ropp. lra. }
  destruct (fsub_ok b a Vb Va Fb Fa R) as (V & F & E). destruct (fsub_round b a Vb Va Fb Fa (no_ov _ R)) as (E2 & _).
  split; [split; assumption|]. split; [exact E2|]. fold A B in E. rewrite (Rabs_pos_eq (B - A)) in E by lra. split; [|exact E].
  apply fgood_range; [split; assumption|]. assert (U : uro <= / 2) by (rewrite uro_val; lra). fold A B in E. apply Rabs_le_inv in E. nra.
Qed.
Lemma off_ok x : fgood x -> A <= fval x <= B -> fgood (sub x a) /\ fval (sub x a) = rnd64 (fval x - A) /\ 0 <= fval (sub x a) <= fval (sub b a) /\ Rabs (fval (sub x a) - (fval x - A)) <= uro * (fval x - A).
Proof.
  intros (V & F) H. destruct Ga as (Va & Fa), Gb as (Vb & Fb). fold A in Ba, Hab. fold B in Bb, Hab.
  assert (R : Rabs (fval x - A) <= bpow radix2 1023). { rewrite Rabs_pos_eq by lra. rewrite <- bp_1023. apply Rabs_le_inv in Ba, Bb. lra. }
  destruct (fsub_ok x a V Va F Fa R) as (V' & F' & E). destruct (fsub_round x a V Va F Fa (no_ov _ R)) as (E2 & _).
  split; [split; assumption|]. fold A in E, E2. split; [exact E2|]. rewrite (Rabs_pos_eq (fval x - A)) in E by lra. split; [|exact E].
  destruct len_ok as (_ & L & _). rewrite E2, L. split; [rewrite <- rnd_0|]; apply rnd_le; lra.
Qed.
Lemma quot_ok x : fgood x -> A <= fval x <= B -> let q := div (sub x a) (sub b a) in
  fgood q /\ fval q = rnd64 (fval (sub x a) / fval (sub b a)) /\ 0 <= fval q <= 1 /\ Rabs (fval q - (fval x - A) / (B - A)) <= 301 / 100 * uro * ((fval x - A) / (B - A)) + eta64.
Proof.
  intros G H q. destruct (off_ok x G H) as (Go & _ & Po & Eo). destruct len_ok as (Gl & _ & Pl & El). fold A in Hab. fold B in Hab.
  assert (L0 : 0 < fval (sub b a)) by (pose proof (bpow_gt_0 radix2 (-1074)); lra).
  assert (Q1 : 0 <= fval (sub x a) / fval (sub b a) <= 1).
  { split; [apply Rmult_le_pos; [lra|apply Rlt_le, Rinv_0_lt_compat, L0]|]. apply (Rmult_le_reg_r (fval (sub b a))); [exact L0|]. unfold Rdiv. rewrite Rmult_assoc, Rinv_l by lra. lra. }
  assert (R : Rabs (fval (sub x a) / fval (sub b a)) <= bpow radix2 1023). { rewrite Rabs_pos_eq by lra. apply Rle_trans with 1; [lra|]. change 1 with (bpow radix2 0). apply bpow_le. lia. }
  destruct Go as (Vo & Fo), Gl as (Vl & Fl). destruct (fdiv_ok _ _ Vo Vl Fo Fl ltac:(lra) R) as (V & F & E). destruct (fdiv_round _ _ Vo Vl Fo Fl ltac:(lra) (no_ov _ R)) as (E2 & _).
  split; [split; assumption|]. split; [exact E2|]. split. { unfold q. rewrite E2. split; [rewrite <- rnd_0|rewrite <- rnd_1]; apply rnd_le; lra. }
  change (div (sub x a) (sub b a)) with q in E. set (o := fval (sub x a)) in *. set (l := fval (sub b a)) in *. set (O := fval x - A) in *. set (L := B - A) in *.
  pose proof uro_pos as U. pose proof uro_tiny as UT.
  assert (O0 : 0 <= O) by (unfold O; lra). assert (Lp : 0 < L) by (unfold L; lra). set (t := O / L) in *. assert (T0 : 0 <= t) by (apply Rmult_le_pos; [lra|apply Rlt_le, Rinv_0_lt_compat, Lp]).
  assert (K : Rabs (o / l - t) <= 2002 / 1000 * uro * t).
  { assert (OT : O = t * L) by (unfold t; field; lra). replace (o / l - t) with ((o - O + t * (L - l)) / l) by (rewrite OT; field; lra).
    assert (N : Rabs (o - O + t * (L - l)) <= 2 * uro * t * L).
    { eapply Rle_trans; [apply Rabs_triang|]. rewrite Rabs_mult, (Rabs_pos_eq t), (Rabs_minus_sym L l) by lra. assert (t * Rabs (l - L) <= t * (uro * L)) by (apply Rmult_le_compat_l; lra). rewrite OT in Eo at 2. nra. }
    assert (Ll : L <= 1001 / 1000 * l) by (apply Rabs_le_inv in El; nra).
    unfold Rdiv. rewrite Rabs_mult, (Rabs_pos_eq (/ l)) by (apply Rlt_le, Rinv_0_lt_compat; lra). apply (Rmult_le_reg_r l); [lra|]. rewrite Rmult_assoc, Rinv_l, Rmult_1_r by lra. eapply Rle_trans; [exact N|].
    assert (0 <= uro * t) by (apply Rmult_le_pos; lra). assert (2 * (uro * t) * L <= 2 * (uro * t) * (1001 / 1000 * l)) by (apply Rmult_le_compat_l; lra). lra. }
  rewrite (Rabs_pos_eq (o / l)) in E by lra. replace (fval q - t) with ((fval q - o / l) + (o / l - t)) by ring. eapply Rle_trans; [apply Rabs_triang|].
  assert (o / l <= 1001 / 1000 * t). { apply Rabs_le_inv in K. assert (uro * t <= / 1000000000000000 * t) by (apply Rmult_le_compat_r; lra). lra. }
  assert (uro * (o / l) <= uro * (1001 / 1000 * t)) by (apply Rmult_le_compat_l; lra). assert (0 <= uro * t) by (apply Rmult_le_pos; lra). lra.
Qed.
Lemma cdf_cases x : fgood x -> (fval x < A /\ uniform_cdf (mkUniform a b) x = zero) \/ (B < fval x /\ uniform_cdf (mkUniform a b) x = one) \/
  (A <= fval x <= B /\ uniform_cdf (mkUniform a b) x = div (sub x a) (sub b a)).
Proof.
  intros (V & F). destruct Ga as (Va & Fa), Gb as (Vb & Fb). fold A B in Hab. unfold uniform_cdf. cbn [un_a un_b]. rewrite !fltb_val by assumption. fold A B.
  destruct (Rlt_bool_spec (fval x) A); [left; auto|]. destruct (Rlt_bool_spec B (fval x)); [right; left; auto|right; right; auto].
Qed.
Lemma uniform_cdf_f64 x : fgood x -> let p := uniform_cdf (mkUniform a b) x in let P := Rmax 0 (Rmin 1 ((fval x - A) / (B - A))) in
  fgood p /\ 0 <= fval p <= 1 /\ Rabs (fval p - P) <= 301 / 100 * uro * P + eta64.
Proof.
  intros G p P. fold A B in Hab. pose proof eta64_pos as H0. pose proof uro_pos as U.
  assert (D : forall z, (fval z - A) / (B - A) * (B - A) = fval z - A) by (intro z; field; lra). specialize (D x). set (t := (fval x - A) / (B - A)) in *.
  destruct (cdf_cases x G) as [(Hx & E)|[(Hx & E)|(Hx & E)]]; unfold p; rewrite E.
  - split; [split; reflexivity|]. change (fval zero) with 0. split; [lra|]. assert (t <= 0) by nra. unfold P. rewrite Rmin_right, Rmax_left by lra. rewrite Rminus_0_r, Rabs_R0. lra.
  - split; [split; reflexivity|]. rewrite fval_one. split; [lra|]. assert (1 <= t) by nra. unfold P. rewrite Rmin_left, Rmax_right by lra. rewrite Rminus_diag_eq, Rabs_R0 by reflexivity. lra.
  - destruct (quot_ok x G Hx) as (Gq & _ & Rq & Eq). split; [exact Gq|]. split; [exact Rq|]. fold t in Eq. assert (0 <= t <= 1) by nra. unfold P. rewrite Rmin_right, Rmax_right by lra. exact Eq.
Qed.
Lemma uniform_cdf_mono x y : fgood x -> fgood y -> fval x <= fval y -> fval (uniform_cdf (mkUniform a b) x) <= fval (uniform_cdf (mkUniform a b) y).
Proof.
  intros Gx Gy H. fold A B in Hab. pose proof (uniform_cdf_f64 x Gx) as (_ & Rx & _). pose proof (uniform_cdf_f64 y Gy) as (_ & Ry & _).
  destruct (cdf_cases x Gx) as [(Hx & E)|[(Hx & E)|(Hx & E)]]; rewrite E in *; [apply Ry| |].
  - destruct (cdf_cases y Gy) as [(Hy & E')|[(Hy & E')|(Hy & E')]]; rewrite E' in *; try lra. 
  - destruct (cdf_cases y Gy) as [(Hy & E')|[(Hy & E')|(Hy & E')]]; rewrite E' in *; [lra|rewrite fval_one; lra|].
    destruct (quot_ok x Gx Hx) as (_ & -> & _). destruct (quot_ok y Gy Hy) as (_ & -> & _). apply rnd_le.
    destruct (off_ok x Gx Hx) as (_ & -> & _). destruct (off_ok y Gy Hy) as (_ & -> & _). destruct len_ok as (_ & _ & L & _). pose proof (bpow_gt_0 radix2 (-1074)).
    apply Rmult_le_compat_r; [apply Rlt_le, Rinv_0_lt_compat; lra|]. apply rnd_le. lra.
Qed.
Lemma uniform_cdf_ends : fval (uniform_cdf (mkUniform a b) a) = 0 /\ fval (uniform_cdf (mkUniform a b) b) = 1.
Proof.
  fold A B in Hab. split.
  - destruct (cdf_cases a Ga) as [(Hx & E)|[(Hx & E)|(Hx & E)]]; [fold A in Hx; lra|fold A in Hx; lra|]. rewrite E. destruct (quot_ok a Ga Hx) as (_ & -> & _). destruct (off_ok a Ga Hx) as (_ & -> & _).
    fold A. rewrite Rminus_diag_eq, rnd_0 by reflexivity. unfold Rdiv. rewrite Rmult_0_l. apply rnd_0.
  - destruct (cdf_cases b Gb) as [(Hx & E)|[(Hx & E)|(Hx & E)]]; [fold B in Hx; lra|fold B in Hx; lra|]. rewrite E. destruct (quot_ok b Gb Hx) as (_ & -> & _). destruct len_ok as (_ & _ & L & _). pose proof (bpow_gt_0 radix2 (-1074)).
    unfold Rdiv. rewrite Rinv_r by lra. apply rnd_1.
Qed.
Lemma uniform_pdf_f64 x : bpow radix2 (-1022) <= B - A -> fgood x -> A <= fval x <= B -> let p := uniform_pdf (mkUniform a b) x in
  fgood p /\ Rabs (fval p - / (B - A)) <= 201 / 100 * uro * / (B - A) + eta64.
Proof.
  intros HL (V & F) Hx p. destruct Ga as (Va & Fa), Gb as (Vb & Fb). fold A B in Hab. unfold p, uniform_pdf. cbn [un_a un_b]. rewrite !fleb_val by assumption. fold A B.
  rewrite !Rle_bool_true by lra. cbn [andb]. destruct len_ok as ((Vl & Fl) & El & _ & E).
  assert (L1 : bpow radix2 (-1022) <= fval (sub b a)) by (rewrite El, <- (rnd_bp (-1022)) by lia; apply rnd_le, HL).
  set (l := fval (sub b a)) in *. pose proof (bpow_gt_0 radix2 (-1022)) as B0. set (L := B - A) in *.
  assert (I : forall z, bpow radix2 (-1022) <= z -> 0 < / z <= bpow radix2 1022). { intros z Hz. split; [apply Rinv_0_lt_compat; lra|]. change 1022%Z with (- -1022)%Z. rewrite bpow_opp. apply Rinv_le_contravar; lra. }
  pose proof (I l L1) as Il. pose proof (I L HL) as IL. pose proof bp_1023 as BB.
  assert (R : Rabs (fval one / l) <= bpow radix2 1023) by (rewrite fval_one; unfold Rdiv; rewrite Rmult_1_l, Rabs_pos_eq by lra; lra).
  assert (Z : fval (sub b a) <> 0) by (fold l; lra). destruct (fdiv_ok one (sub b a) V1f Vl eq_refl Fl Z R) as (V' & F' & E'). split; [split; assumption|]. fold l in E'. rewrite fval_one in E'. unfold Rdiv in E'. rewrite Rmult_1_l in E'.
  pose proof uro_pos as U. pose proof uro_tiny as UT.
  assert (K : Rabs (/ l - / L) <= 1001 / 1000 * uro * / L).
  { replace (/ l - / L) with ((L - l) * / l * / L) by (field; lra). rewrite !Rabs_mult, (Rabs_pos_eq (/ l)), (Rabs_pos_eq (/ L)), Rabs_minus_sym by lra. apply Rmult_le_compat_r; [lra|].
    assert (Ll : L <= 1001 / 1000 * l) by (apply Rabs_le_inv in E; nra). apply (Rmult_le_reg_r l); [lra|]. rewrite Rmult_assoc, Rinv_l, Rmult_1_r by lra. nra. }
  replace (fval (div one (sub b a)) - / L) with ((fval (div one (sub b a)) - / l) + (/ l - / L)) by ring. eapply Rle_trans; [apply Rabs_triang|].
  assert (/ l <= 1001 / 1000 * / L). { apply Rabs_le_inv in K. assert (uro * / L <= / 1000000000000000 * / L) by (apply Rmult_le_compat_r; lra). lra. }
  rewrite (Rabs_pos_eq (/ l)) in E' by lra. assert (uro * / l <= uro * (1001 / 1000 * / L)) by (apply Rmult_le_compat_l; lra). assert (0 <= uro * / L) by (apply Rmult_le_pos; lra). lra.
Qed.
Lemma uniform_quantile_f64 q : fgood q -> 0 <= fval q <= 1 -> exists x, uniform_quantile (mkUniform a b) q = Ret x /\ fgood x /\
  Rabs (fval x - (A + fval q * (B - A))) <= 4 * uro * (Rabs A + Rabs B) + 2 * eta64.
Proof.
  intros (V & F) Hq. pose proof Ga as (Va & Fa). fold A B in Hab. fold A in Ba. fold B in Bb. unfold uniform_quantile. cbn [un_a un_b].
  rewrite (fltb_val one q V1f V eq_refl F), (fltb_val q zero V V0f F eq_refl), fval_one. change (fval zero) with 0.
  rewrite !Rlt_bool_false by lra. cbn [orb]. eexists. split; [reflexivity|].
  destruct len_ok as ((Vl & Fl) & El & Pl & E). pose proof uro_pos as U. pose proof uro_tiny as UT. pose proof eta64_pos as H0. pose proof eta_uro_2 as HU.
  pose proof (bpow_gt_0 radix2 (-1074)) as B0. set (l := fval (sub b a)) in *. set (Q := fval q) in *.
  assert (LS : B - A <= Rabs A + Rabs B) by (pose proof (Rle_abs B); pose proof (Rle_abs (- A)); rewrite Rabs_Ropp in *; lra).
  set (M := Rabs A + Rabs B) in *. assert (M0 : 0 <= M) by (unfold M; pose proof (Rabs_pos A); pose proof (Rabs_pos B); lra).
  assert (MB : M <= bpow radix2 1023) by (rewrite <- bp_1023; unfold M; lra).
  assert (l1 : l <= bpow radix2 1023). { rewrite El, <- (rnd_bp 1023) by lia. apply rnd_le. lra. }
  assert (lM : l <= 1001 / 1000 * M) by (apply Rabs_le_inv in E; nra).
  assert (R1 : Rabs (Q * l) <= bpow radix2 1023) by (rewrite Rabs_pos_eq by (apply Rmult_le_pos; lra); nra).
  destruct (fmul_ok q (sub b a) V Vl F Fl R1) as (V1 & F1 & E1). fold l Q in E1.
  destruct (fmul_round q (sub b a) V Vl F Fl (no_ov _ R1)) as (E1' & _). fold l Q in E1'.
  assert (P1 : 0 <= fval (mul q (sub b a)) <= l). { rewrite E1'. split; [rewrite <- rnd_0; apply rnd_le, Rmult_le_pos; lra|]. apply Rle_trans with (rnd64 l); [apply rnd_le; nra|]. unfold l. rewrite (rnd_fval _ Vl). lra. }
  set (p := fval (mul q (sub b a))) in *.
  assert (lB : l <= 2 * bpow radix2 1022) by (pose proof bp_1023; lra).
  assert (R2 : Rabs (p + A) <= bpow radix2 1023).
  { assert (LB : A + l <= bpow radix2 1023).
    { destruct (Rle_dec A 0); [lra|]. apply Rabs_le_inv in Bb. assert (l <= B). { rewrite El. replace B with (rnd64 B) at 2 by (apply rnd_fval, Gb). apply rnd_le. lra. } pose proof bp_1023. apply Rabs_le_inv in Ba. lra. }
    pose proof bp_1023. apply Rabs_le_inv in Ba. apply Rabs_le. lra. }
  destruct (fadd_ok _ a V1 Va F1 Fa R2) as (V2 & F2 & E2). fold p A in E2. split; [split; assumption|].
  set (x := fval (add (mul q (sub b a)) a)) in *.
  rewrite (Rabs_pos_eq (Q * l)) in E1 by (apply Rmult_le_pos; lra).
  assert (D1 : Rabs (p + A - (A + Q * (B - A))) <= uro * l + eta64 + uro * M).
  { replace (p + A - (A + Q * (B - A))) with ((p - Q * l) + Q * (l - (B - A))) by ring. eapply Rle_trans; [apply Rabs_triang|]. rewrite (Rabs_mult Q), (Rabs_pos_eq Q) by lra.
    assert (Q * Rabs (l - (B - A)) <= 1 * (uro * (B - A))) by (apply Rmult_le_compat; [lra|apply Rabs_pos|lra|exact E]). assert (uro * (Q * l) <= uro * l) by (apply Rmult_le_compat_l; [lra|]; nra). assert (uro * (B - A) <= uro * M) by (apply Rmult_le_compat_l; lra). lra. }
  assert (T : Rabs (A + Q * (B - A)) <= M).
  { replace (A + Q * (B - A)) with ((1 - Q) * A + Q * B) by ring. eapply Rle_trans; [apply Rabs_triang|]. rewrite !Rabs_mult, (Rabs_pos_eq Q), (Rabs_pos_eq (1 - Q)) by lra. unfold M. pose proof (Rabs_pos A). pose proof (Rabs_pos B). nra. }
  assert (D2 : Rabs (p + A) <= uro * l + eta64 + uro * M + M).
  { replace (p + A) with ((p + A - (A + Q * (B - A))) + (A + Q * (B - A))) by ring. eapply Rle_trans; [apply Rabs_triang|]. lra. }
  replace (x - (A + Q * (B - A))) with ((x - (p + A)) + (p + A - (A + Q * (B - A)))) by ring. eapply Rle_trans; [apply Rabs_triang|].
  assert (uro * Rabs (p + A) <= uro * (uro * l + eta64 + uro * M + M)) by (apply Rmult_le_compat_l; lra).
  assert (uro * l <= uro * (1001 / 1000 * M)) by (apply Rmult_le_compat_l; lra).
  assert (uro * eta64 <= / 1000000000000000 * eta64) by (apply Rmult_le_compat_r; lra).
  assert (uro * (uro * l) <= / 1000000000000000 * (uro * l)) by (apply Rmult_le_compat_r; [apply Rmult_le_pos; lra|lra]).
  assert (uro * (uro * M) <= / 1000000000000000 * (uro * M)) by (apply Rmult_le_compat_r; [apply Rmult_le_pos; lra|lra]).
  assert (0 <= uro * M) by (apply Rmult_le_pos; lra). lra.
Qed.
End Uniform.
(** With a = -3.2 and b = 8.4 the quantile of 1 is larger than b. *)
Lemma uniform_quantile_out : exists x, uniform_quantile (T := f64) (mkUniform (lit (-16) 5) (lit 42 5)) one = Ret x /\ ltb (lit 42 5) x = true.
Proof. eexists. split; vm_compute; reflexivity. Qed.
Definition huge (s : bool) : f64 := S754_finite s 9007199254740991 971.
Lemma uniform_cdf_nan : uniform_cdf (T := f64) (mkUniform (huge true) (huge false)) (huge false) = S754_nan.
Proof. vm_compute. reflexivity. Qed.
