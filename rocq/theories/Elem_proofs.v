(** Proofs about the elementary functions of the primitive floats, over exact reals. *)
From Coq Require Import Reals Lra Lia Bool.
From Verif Require Import Outcome Scalar RealOps Elem_model Ortho_proofs ComplexFun_proofs.
Local Open Scope R_scope.

Ltac ered := cbn [zero one add sub mul div neg eqb ltb leb tabs R_ops texp tln tsin tcos ttan tasin tacos tatan tatan2 tsinh tcosh ttanh tasinh tacosh tatanh tpi te R_eops two half R_pops].

Lemma R_ltb_true x y : R_ltb x y = true <-> x < y.
Proof. unfold R_ltb. destruct (Rlt_dec x y); split; intros; try reflexivity; try discriminate; try assumption; contradiction. Qed.
Lemma R_ltb_false x y : R_ltb x y = false <-> y <= x.
Proof. unfold R_ltb. destruct (Rlt_dec x y); split; intros; try reflexivity; try discriminate; lra. Qed.
Lemma R_leb_true x y : R_leb x y = true <-> x <= y.
Proof. unfold R_leb. destruct (Rle_dec x y); split; intros; try reflexivity; try discriminate; try assumption; contradiction. Qed.
Lemma R_leb_false x y : R_leb x y = false <-> y < x.
Proof. unfold R_leb. destruct (Rle_dec x y); split; intros; try reflexivity; try discriminate; lra. Qed.

Lemma Rabs_le_1 x : Rabs x <= 1 <-> -1 <= x <= 1.
Proof. split; intros H. - pose proof (Rle_abs x). pose proof (Rle_abs (- x)). rewrite Rabs_Ropp in *. lra. - apply Rabs_le. lra. Qed.

Lemma earcsin_ok x : (-1 <= x <= 1 -> exists y, earcsin x = Ret y /\ sin y = x /\ - (PI / 2) <= y <= PI / 2) /\ (x < -1 \/ 1 < x -> earcsin x = Panic).
Proof.
  unfold earcsin. ered. split; intros H.
  - destruct (R_ltb 1 (Rabs x)) eqn:E; [apply R_ltb_true in E; apply Rabs_le_1 in H; lra|].
    eexists. split; [reflexivity|]. split; [apply sin_asin; exact H|apply asin_bound].
  - destruct (R_ltb 1 (Rabs x)) eqn:E; [reflexivity|]. apply R_ltb_false in E. apply Rabs_le_1 in E. lra.
Qed.
Lemma earccos_ok x : (-1 <= x <= 1 -> exists y, earccos x = Ret y /\ cos y = x /\ 0 <= y <= PI) /\ (x < -1 \/ 1 < x -> earccos x = Panic).
Proof.
  unfold earccos. ered. split; intros H.
  - destruct (R_ltb 1 (Rabs x)) eqn:E; [apply R_ltb_true in E; apply Rabs_le_1 in H; lra|].
    eexists. split; [reflexivity|]. split; [apply cos_acos; exact H|apply acos_bound].
  - destruct (R_ltb 1 (Rabs x)) eqn:E; [reflexivity|]. apply R_ltb_false in E. apply Rabs_le_1 in E. lra.
Qed.

Lemma earccot_ok x : x <> 0 -> ecot (earccot x) = x.
Proof.
  intros H. unfold ecot, earccot. ered. destruct (R_eqb x 0) eqn:E; [apply R_eqb_true in E; contradiction|].
  replace (if R_ltb 0 x then atan (1 / x) else atan (1 / x)) with (atan (1 / x)) by (destruct (R_ltb 0 x); reflexivity).
  rewrite tan_atan. field. exact H.
Qed.
Lemma earccot_zero : earccot 0 = 0 /\ cos (earccot 0) <> 0.
Proof.
  assert (E : earccot 0 = 0) by (unfold earccot; ered; rewrite (proj2 (R_eqb_true 0 0)) by reflexivity; reflexivity).
  rewrite E. split; [reflexivity|]. rewrite cos_0. lra.
Qed.

Lemma inv_range x : 1 <= Rabs x -> -1 <= 1 / x <= 1.
Proof.
  intros H. apply Rabs_le_1. assert (x <> 0) by (intro; subst; rewrite Rabs_R0 in H; lra).
  unfold Rdiv. rewrite Rmult_1_l, Rabs_inv. rewrite <- Rinv_1. apply Rinv_le_contravar; lra.
Qed.
Lemma earcsec_ok x : 1 <= Rabs x -> esec (earcsec x) = x.
Proof.
  intros H. assert (x <> 0) by (intro; subst; rewrite Rabs_R0 in H; lra). unfold esec, earcsec. ered. rewrite cos_acos by (apply inv_range; exact H). field. assumption.
Qed.
Lemma earccsc_ok x : 1 <= Rabs x -> ecsc (earccsc x) = x.
Proof.
  intros H. assert (x <> 0) by (intro; subst; rewrite Rabs_R0 in H; lra). unfold ecsc, earccsc. ered. rewrite sin_asin by (apply inv_range; exact H). field. assumption.
Qed.

Lemma ecoth_ok x : x <> 0 -> ecoth x = Ret (cosh x / sinh x).
Proof. intros H. unfold ecoth. ered. rewrite (proj2 (R_eqb_false x 0)) by exact H. reflexivity. Qed.
Lemma ecsch_ok x : x <> 0 -> ecsch x = Ret (1 / sinh x).
Proof. intros H. unfold ecsch. ered. rewrite (proj2 (R_eqb_false x 0)) by exact H. reflexivity. Qed.
Lemma zero_panics : ecoth 0 = Panic /\ ecsch 0 = Panic.
Proof. unfold ecoth, ecsch. ered. rewrite (proj2 (R_eqb_true 0 0)) by reflexivity. split; reflexivity. Qed.

Lemma sinh_zero_iff x : sinh x = 0 <-> x = 0.
Proof.
  split; intros H; [|subst; apply sinh_0]. destruct (Rtotal_order x 0) as [Hx|[Hx|Hx]]; [|assumption|].
  - apply sinh_lt in Hx. rewrite sinh_0 in Hx. lra.
  - apply sinh_lt in Hx. rewrite sinh_0 in Hx. lra.
Qed.

Lemma tanh_artanh x : -1 < x < 1 -> tanh (tatanh x) = x.
Proof.
  intros H. destruct (artanh_cs x H) as [H1 H2]. unfold tanh. rewrite H1, H2.
  assert (0 < sqrt (1 - x * x)) by (apply sqrt_lt_R0; nra). field. lra.
Qed.
Lemma artanh_tanh x : -1 < tanh x < 1 /\ tatanh (tanh x) = x.
Proof.
  assert (Hb : -1 < tanh x < 1).
  { unfold tanh. pose proof (cosh_pos x). pose proof (exp_pos x). pose proof (exp_pos (- x)).
    assert (cosh x - sinh x = exp (- x)) by (unfold cosh, sinh; field). assert (cosh x + sinh x = exp x) by (unfold cosh, sinh; field).
    split; apply (Rmult_lt_reg_r (cosh x)); try assumption; unfold Rdiv; rewrite Rmult_assoc, Rinv_l by lra; lra. }
  split; [exact Hb|]. cbn [tatanh R_eops]. pose proof (cosh_pos x).
  replace ((1 + tanh x) / (1 - tanh x)) with (exp (2 * x)).
  - rewrite ln_exp. field.
  - unfold tanh. assert (E1 : cosh x - sinh x = exp (- x)) by (unfold cosh, sinh; field). assert (E2 : cosh x + sinh x = exp x) by (unfold cosh, sinh; field).
    replace ((1 + sinh x / cosh x) / (1 - sinh x / cosh x)) with ((cosh x + sinh x) / (cosh x - sinh x)).
    + rewrite E1, E2. rewrite exp_Ropp. replace (2 * x) with (x + x) by ring. rewrite exp_plus. pose proof (exp_pos x). field. lra.
    + pose proof (exp_pos (- x)). field. split; lra.
Qed.

Lemma arcoth_ok x : x < -1 \/ 1 < x -> exists y, earcoth x = Ret y /\ ecoth y = Ret x.
Proof.
  intros H. unfold earcoth. ered.
  replace (R_leb (- (1)) x && R_leb x 1) with false.
  2:{ symmetry. apply andb_false_iff. destruct H; [left|right]; apply R_leb_false; lra. }
  eexists. split; [reflexivity|].
  assert (Hp : 0 < (x + 1) / (x - 1)).
  { destruct H as [H|H]; [|apply Rdiv_lt_0_compat; lra]. replace ((x + 1) / (x - 1)) with ((- x - 1) / (- x + 1)) by (field; lra). apply Rdiv_lt_0_compat; lra. }
  set (q := (x + 1) / (x - 1)) in *. set (u := ln q / 2).
  assert (Hu : exp u * exp u = q) by (unfold u; rewrite <- exp_plus; replace (ln q / 2 + ln q / 2) with (ln q) by field; apply exp_ln; exact Hp).
  assert (Hq1 : q <> 1) by (unfold q; intro E; apply (f_equal (Rmult (x - 1))) in E; replace ((x - 1) * ((x + 1) / (x - 1))) with (x + 1) in E by (field; lra); lra).
  assert (Hn : u <> 0) by (intro E; rewrite E, exp_0 in Hu; lra).
  rewrite (ecoth_ok u Hn). f_equal. unfold cosh, sinh. rewrite exp_Ropp. pose proof (exp_pos u) as He. set (e := exp u) in *.
  replace ((e + / e) / 2 / ((e - / e) / 2)) with ((e * e + 1) / (e * e - 1)) by (field; split; [intro E; apply Hq1; rewrite <- Hu; lra|lra]).
  rewrite Hu. unfold q. field. split; [lra|]. intro E. lra.
Qed.
Lemma arcoth_panics x : -1 <= x <= 1 -> earcoth x = Panic.
Proof. intros H. unfold earcoth. ered. rewrite (proj2 (R_leb_true (- (1)) x)) by lra. rewrite (proj2 (R_leb_true x 1)) by lra. reflexivity. Qed.

Lemma arsinh_ok x : sinh (earsinh x) = x.
Proof.
  unfold earsinh. ered. replace (ln (x + sqrt (x * x + 1))) with (arcsinh x) by (unfold arcsinh; do 3 f_equal; ring). apply sinh_arcsinh.
Qed.
Lemma arsinh_sinh x : earsinh (sinh x) = x.
Proof.
  unfold earsinh. ered. replace (ln (sinh x + sqrt (sinh x * sinh x + 1))) with (arcsinh (sinh x)) by (unfold arcsinh; do 3 f_equal; ring). apply arcsinh_sinh.
Qed.
Lemma arcosh_ok x : 1 <= x -> cosh (earcosh x) = x /\ 0 <= earcosh x.
Proof.
  intros H. unfold earcosh. ered. assert (Hs : 0 <= sqrt (x * x - 1)) by apply sqrt_pos. assert (Hq : sqrt (x * x - 1) * sqrt (x * x - 1) = x * x - 1) by (apply sqrt_sqrt; nra).
  set (s := sqrt (x * x - 1)) in *. split.
  - unfold cosh. rewrite exp_Ropp, exp_ln by lra. apply (Rmult_eq_reg_r (2 * (x + s))); [|lra].
    replace ((x + s + / (x + s)) / 2 * (2 * (x + s))) with ((x + s) * (x + s) + 1) by (field; lra). nra.
  - rewrite <- ln_1. destruct (Rle_lt_or_eq_dec 1 (x + s)) as [Hl|He]; [lra| |].
    + apply Rlt_le, ln_increasing; lra.
    + rewrite <- He. lra.
Qed.
Lemma arsech_ok x : 0 < x <= 1 -> exists y, earsech x = Ret y /\ esech y = x.
Proof.
  intros H. unfold earsech. ered. rewrite (proj2 (R_leb_false x 0)) by lra. rewrite (proj2 (R_ltb_false 1 x)) by lra. cbn [orb].
  eexists. split; [reflexivity|]. unfold esech. ered. assert (H1 : 1 <= 1 / x). { unfold Rdiv. rewrite Rmult_1_l. rewrite <- Rinv_1. apply Rinv_le_contravar; lra. }
  destruct (arcosh_ok (1 / x) H1) as [E _]. unfold earcosh in E. cbn [tacosh R_eops] in E. rewrite E. field. lra.
Qed.
Lemma arsech_panics x : x <= 0 \/ 1 < x -> earsech x = Panic.
Proof.
  intros H. unfold earsech. ered. destruct H as [H|H].
  - rewrite (proj2 (R_leb_true x 0)) by exact H. reflexivity.
  - rewrite (proj2 (R_ltb_true 1 x)) by exact H. rewrite orb_true_r. reflexivity.
Qed.
Lemma arcsch_ok x : x <> 0 -> ecsch (earcsch x) = Ret x.
Proof.
  intros H. unfold earcsch. assert (E := arsinh_ok (1 / x)). unfold earsinh in E. ered. cbn [tasinh R_eops] in E.
  rewrite ecsch_ok.
  - rewrite E. f_equal. field. exact H.
  - intro E2. rewrite E2, sinh_0 in E. apply H. assert (Hx : 1 / x <> 0) by (unfold Rdiv; rewrite Rmult_1_l; apply Rinv_neq_0_compat; exact H). congruence.
Qed.

Lemma artanh_all x : (-1 < x < 1 -> exists y, eartanh x = Ret y /\ tanh y = x) /\ (x <= -1 \/ 1 <= x -> eartanh x = Panic) /\
  eartanh (tanh x) = Ret x.
Proof.
  split; [|split].
  - intros H. exists (tatanh x). split; [apply eartanh_ok; exact H|apply tanh_artanh; exact H].
  - apply eartanh_panic.
  - destruct (artanh_tanh x) as [H1 H2]. rewrite eartanh_ok by exact H1. f_equal. exact H2.
Qed.

Lemma earctan_ok (x : R) : tan (earctan x) = x /\ - (PI / 2) < earctan x < PI / 2 /\ forall y, - (PI / 2) < y < PI / 2 -> earctan (tan y) = y.
Proof.
  unfold earctan. ered. pose proof (atan_bound x). split; [apply atan_right_inv|]. split; [lra|]. intros y Hy. apply atan_tan. lra.
Qed.
