(** Proofs about complex numbers over exact reals. *)
From Coq Require Import Reals Lra Lia Bool Ring Field.
From Verif Require Import Outcome Scalar RealOps Elem_model Complex_model Ortho_proofs.
Local Open Scope R_scope.

Notation Cx := (cplx R).

Lemma cplx_eq {T} (z w : cplx T) : re z = re w -> im z = im w -> z = w.
Proof. destruct z, w; simpl; intros; subst; reflexivity. Qed.

Ltac cred := cbv [cadd csub cmul cneg cconj czero cone cexp coperate_mul re im zero one add sub mul div neg eqb ltb leb tabs R_ops] in *.
Ltac cring := intros; repeat match goal with z : cplx _ |- _ => destruct z end; apply cplx_eq; cred; ring.

(** ** Ring laws over any commutative ring *)
Section Gen.
Context {T : Type} {O : Ops T} (L : RingLaws O).
Add Ring cxgen : (rl_ring O L).
Ltac gring := intros; repeat match goal with z : cplx _ |- _ => destruct z end; apply cplx_eq; cbn [cadd csub cmul cneg cconj czero cone coperate_mul re im]; ring.
Lemma cplx_ring : ring_theory czero cone cadd cmul csub cneg (@eq (cplx T)).
Proof. constructor; gring. Qed.
Lemma cconj_involutive (z : cplx T) : cconj (cconj z) = z. Proof. gring. Qed.
Lemma cconj_add (z w : cplx T) : cconj (cadd z w) = cadd (cconj z) (cconj w). Proof. gring. Qed.
Lemma cconj_sub (z w : cplx T) : cconj (csub z w) = csub (cconj z) (cconj w). Proof. gring. Qed.
Lemma cconj_mul (z w : cplx T) : cconj (cmul z w) = cmul (cconj z) (cconj w). Proof. gring. Qed.
Lemma cconj_one : cconj cone = (cone : cplx T). Proof. gring. Qed.
Lemma cmul_conj (z : cplx T) : cmul z (cconj z) = mkC (add (mul (re z) (re z)) (mul (im z) (im z))) zero. Proof. gring. Qed.
Lemma coperate_mul_ok (z w : cplx T) : coperate_mul z w = cmul z w. Proof. gring. Qed.
End Gen.

(** ** The field of complex numbers *)
Definition Cinv (z : Cx) : Cx := mkC (re z / (re z * re z + im z * im z)) (- im z / (re z * re z + im z * im z)).
Definition Cdivt (z w : Cx) : Cx := cmul z (Cinv w).

Lemma nsq_zero (x y : R) : x * x + y * y = 0 -> x = 0 /\ y = 0.
Proof. intros H. split; nra. Qed.

Lemma nsq_nz (z : Cx) : z <> czero -> re z * re z + im z * im z <> 0.
Proof. intros H E. apply nsq_zero in E. apply H. apply cplx_eq; apply E. Qed.

Lemma nsq_pos (z : Cx) : z <> czero -> 0 < re z * re z + im z * im z.
Proof. intros H. apply nsq_nz in H. assert (0 <= re z * re z + im z * im z) by nra. lra. Qed.

Lemma one_neq_czero : (cone : Cx) <> czero.
Proof. intro H. apply (f_equal re) in H. cbn in H. lra. Qed.

Lemma Cx_field : field_theory (czero : Cx) cone cadd cmul csub cneg Cdivt Cinv eq.
Proof.
  constructor.
  - apply (cplx_ring R_RingLaws).
  - apply one_neq_czero.
  - reflexivity.
  - intros z Hz. apply nsq_nz in Hz. unfold Cinv. apply cplx_eq; cred; field; exact Hz.
Qed.
Add Field CxField : Cx_field.

Lemma cdiv_zero (z : Cx) : cdiv z czero = Panic.
Proof. unfold cdiv. cbn. replace (0 * 0 + 0 * 0) with 0 by ring. rewrite (proj2 (R_eqb_true 0 0)) by reflexivity. reflexivity. Qed.

Lemma cdiv_ok (z w : Cx) : w <> czero -> cdiv z w = Ret (Cdivt z w).
Proof.
  intros H. apply nsq_nz in H. unfold cdiv. cbn [add mul zero R_ops eqb]. destruct (R_eqb (re w * re w + im w * im w) 0) eqn:E.
  - apply R_eqb_true in E. contradiction.
  - f_equal. unfold Cdivt, Cinv. apply cplx_eq; cred; field; exact H.
Qed.

(** ** Polar form *)
Lemma eroot2 x : 0 <= x -> eroot x two = sqrt x.
Proof. intros H. unfold eroot. cbn. replace (1 / 2) with (1 / 2) by reflexivity. apply R_pow_half. exact H. Qed.

Lemma cabs_ok (z : Cx) : cabs z = mkC (sqrt (re z * re z + im z * im z)) 0.
Proof. unfold cabs. cbn [mul add R_ops zero]. f_equal. apply (eroot2 (re z * re z + im z * im z)). nra. Qed.

Lemma cos_atan_r t : cos (atan t) = 1 / sqrt (1 + t * t).
Proof. rewrite cos_atan. unfold Rsqr. reflexivity. Qed.
Lemma sin_atan_r t : sin (atan t) = t / sqrt (1 + t * t).
Proof. rewrite sin_atan. reflexivity. Qed.

Lemma sqrt_ratio x y : x <> 0 -> sqrt (1 + y / x * (y / x)) = sqrt (x * x + y * y) / Rabs x.
Proof.
  intros H. replace (1 + y / x * (y / x)) with ((x * x + y * y) / (x * x)) by (field; assumption).
  rewrite sqrt_div_alt by nra. f_equal. apply sqrt_Rsqr_abs.
Qed.

Lemma atan2_polar (x y : R) : x * x + y * y <> 0 ->
  x = sqrt (x * x + y * y) * cos (R_atan2 y x) /\ y = sqrt (x * x + y * y) * sin (R_atan2 y x).
Proof.
  intros H. set (r := sqrt (x * x + y * y)).
  assert (Hr : 0 < r) by (apply sqrt_lt_R0; nra).
  unfold R_atan2. destruct (Rlt_dec 0 x) as [Hx|Hx]; [|destruct (Rlt_dec x 0) as [Hx'|Hx']].
  - rewrite cos_atan_r, sin_atan_r, sqrt_ratio by lra. fold r. rewrite Rabs_right by lra. split; field; lra.
  - assert (Hc : cos (atan (y / x)) = - x / r).
    { rewrite cos_atan_r, sqrt_ratio by lra. fold r. rewrite Rabs_left by lra. field. lra. }
    assert (Hs : sin (atan (y / x)) = - y / r).
    { rewrite sin_atan_r, sqrt_ratio by lra. fold r. rewrite Rabs_left by lra. field. lra. }
    destruct (Rle_dec 0 y).
    + rewrite neg_cos, neg_sin, Hc, Hs. split; field; lra.
    + replace (atan (y / x) - PI) with (atan (y / x) + PI - 2 * PI) by ring.
      rewrite cos_minus, sin_minus, cos_2PI, sin_2PI, neg_cos, neg_sin, Hc, Hs. split; field; lra.
  - assert (x = 0) by lra. subst x. destruct (Rlt_dec 0 y) as [Hy|Hy]; [|destruct (Rlt_dec y 0) as [Hy'|Hy']].
    + rewrite cos_PI2, sin_PI2. assert (Er : r = y) by (unfold r; replace (0 * 0 + y * y) with (y * y) by ring; apply sqrt_square; lra). lra.
    + rewrite cos_neg, sin_neg, cos_PI2, sin_PI2.
      assert (Er : r = - y) by (unfold r; replace (0 * 0 + y * y) with (- y * - y) by ring; apply sqrt_square; lra). lra.
    + exfalso. apply H. replace y with 0 by lra. ring.
Qed.

Lemma atan2_range (x y : R) : - PI < R_atan2 y x <= PI.
Proof.
  pose proof PI_RGT_0 as HP. unfold R_atan2. pose proof (atan_bound (y / x)) as Hb.
  destruct (Rlt_dec 0 x); [lra|]. destruct (Rlt_dec x 0) as [Hx|Hx].
  - destruct (Rle_dec 0 y) as [Hy|Hy].
    + assert (atan (y / x) <= 0). { rewrite <- atan_0. destruct (Req_dec y 0) as [->|]; [unfold Rdiv; rewrite Rmult_0_l; lra|]. apply Rlt_le, atan_increasing.
        assert (0 < y * / - x) by (apply Rmult_lt_0_compat; [lra|apply Rinv_0_lt_compat; lra]). replace (y / x) with (- (y * / - x)) by (field; lra). lra. }
      lra.
    + assert (0 < atan (y / x)). { rewrite <- atan_0. apply atan_increasing.
        assert (0 < - y * / - x) by (apply Rmult_lt_0_compat; [lra|apply Rinv_0_lt_compat; lra]). replace (y / x) with (- y * / - x) by (field; lra). lra. }
      lra.
  - destruct (Rlt_dec 0 y); [lra|]. destruct (Rlt_dec y 0); lra.
Qed.

Lemma cos_sin_inj a b : - PI < a <= PI -> - PI < b <= PI -> cos a = cos b -> sin a = sin b -> a = b.
Proof.
  intros Ha Hb Hc Hs. pose proof PI_RGT_0.
  assert (H1 : cos (a - b) = 1). { rewrite cos_minus, Hc, Hs. pose proof (sin2_cos2 b) as H2. unfold Rsqr in H2. lra. }
  assert (H2 : sin (a - b) = 0). { rewrite sin_minus, Hc, Hs. ring. }
  assert (Hs2 : sin ((a - b) / 2) = 0).
  { assert (E : cos (2 * ((a - b) / 2)) = 1) by (replace (2 * ((a - b) / 2)) with (a - b) by field; exact H1).
    rewrite cos_2a_sin in E. nra. }
  destruct (Rtotal_order ((a - b) / 2) 0) as [Hn|[Hz|Hp]]; [|lra|].
  - assert (0 < sin (- ((a - b) / 2))) by (apply sin_gt_0; lra). rewrite sin_neg in *. lra.
  - assert (0 < sin ((a - b) / 2)) by (apply sin_gt_0; lra). lra.
Qed.

(** ** Modulus *)
Definition cmod (z : Cx) : R := sqrt (re z * re z + im z * im z).
Lemma cabs_cmod z : cabs z = mkC (cmod z) 0.
Proof. apply cabs_ok. Qed.
Lemma cmod_pos z : 0 <= cmod z. Proof. apply sqrt_pos. Qed.
Lemma cmod_sq z : cmod z * cmod z = re z * re z + im z * im z.
Proof. apply sqrt_sqrt. nra. Qed.
Lemma cmod_zero z : cmod z = 0 <-> z = czero.
Proof.
  split; intros H.
  - pose proof (cmod_sq z) as E. rewrite H, Rmult_0_l in E. symmetry in E. apply nsq_zero in E. apply cplx_eq; apply E.
  - subst z. unfold cmod. cbn. replace (0 * 0 + 0 * 0) with 0 by ring. apply sqrt_0.
Qed.
Lemma cmod_mul z w : cmod (cmul z w) = cmod z * cmod w.
Proof.
  unfold cmod. rewrite <- sqrt_mult by nra. f_equal. destruct z, w. cred. ring.
Qed.
Lemma cmod_triangle z w : cmod (cadd z w) <= cmod z + cmod w.
Proof.
  apply Rsqr_incr_0_var; [|pose proof (cmod_pos z); pose proof (cmod_pos w); lra]. unfold Rsqr.
  rewrite cmod_sq. pose proof (cmod_sq z) as Hz. pose proof (cmod_sq w) as Hw.
  assert (Hcs : re z * re w + im z * im w <= cmod z * cmod w).
  { destruct (Rle_dec 0 (re z * re w + im z * im w)) as [Hp|Hp].
    - apply Rsqr_incr_0_var; [|apply Rmult_le_pos; apply cmod_pos]. unfold Rsqr.
      replace (cmod z * cmod w * (cmod z * cmod w)) with ((cmod z * cmod z) * (cmod w * cmod w)) by ring. rewrite Hz, Hw.
      pose proof (Rle_0_sqr (re z * im w - im z * re w)) as Hq. unfold Rsqr in Hq. lra.
    - pose proof (Rmult_le_pos _ _ (cmod_pos z) (cmod_pos w)). lra. }
  replace ((cmod z + cmod w) * (cmod z + cmod w)) with (cmod z * cmod z + cmod w * cmod w + 2 * (cmod z * cmod w)) by ring.
  rewrite Hz, Hw. cred. lra.
Qed.
Lemma polar z : z <> czero -> z = mkC (cmod z * cos (R_atan2 (im z) (re z))) (cmod z * sin (R_atan2 (im z) (re z))).
Proof. intros H. apply nsq_nz in H. destruct (atan2_polar _ _ H) as [H1 H2]. apply cplx_eq; assumption. Qed.

(** ** Exponential and logarithm *)
Definition Ci : Cx := mkC 0 1.
Lemma cexp_add (z w : Cx) : cexp (cadd z w) = cmul (cexp z) (cexp w).
Proof.
  destruct z as [a b], w as [c d]. apply cplx_eq; cbv [cexp cadd cmul re im add mul sub R_ops texp tcos tsin R_eops]; rewrite exp_plus; [rewrite cos_plus|rewrite sin_plus]; ring.
Qed.
Lemma cexp_zero : cexp czero = (cone : Cx).
Proof. apply cplx_eq; cbv [cexp czero cone re im mul zero one R_ops texp tcos tsin R_eops]; rewrite exp_0, ?cos_0, ?sin_0; ring. Qed.
Lemma cexp_mod (z : Cx) : cmod (cexp z) = exp (re z).
Proof.
  unfold cmod, cexp. cbn [re im mul R_ops texp tcos tsin R_eops].
  replace (exp (re z) * cos (im z) * (exp (re z) * cos (im z)) + exp (re z) * sin (im z) * (exp (re z) * sin (im z)))
    with (exp (re z) * exp (re z) * ((sin (im z))² + (cos (im z))²)) by (unfold Rsqr; ring).
  rewrite sin2_cos2, Rmult_1_r. apply sqrt_square. apply Rlt_le, exp_pos.
Qed.
Lemma cexp_nz (z : Cx) : cexp z <> czero.
Proof. intro H. apply cmod_zero in H. rewrite cexp_mod in H. pose proof (exp_pos (re z)). lra. Qed.
Lemma cln_ok (z : Cx) : cln z = mkC (ln (cmod z)) (R_atan2 (im z) (re z)).
Proof. unfold cln. rewrite cabs_cmod. reflexivity. Qed.
Lemma cexp_cln (z : Cx) : z <> czero -> cexp (cln z) = z.
Proof.
  intros H. rewrite cln_ok. transitivity (mkC (cmod z * cos (R_atan2 (im z) (re z))) (cmod z * sin (R_atan2 (im z) (re z)))); [|symmetry; apply polar; exact H]. unfold cexp. cbn [re im mul R_ops texp tcos tsin R_eops].
  rewrite exp_ln; [reflexivity|]. pose proof (cmod_pos z). destruct (Req_dec (cmod z) 0) as [E|]; [apply cmod_zero in E; contradiction|lra].
Qed.
Lemma cexp_inj_strip (z w : Cx) : - PI < im z <= PI -> - PI < im w <= PI -> cexp z = cexp w -> z = w.
Proof.
  intros Hz Hw H. assert (Hm := f_equal cmod H). rewrite !cexp_mod in Hm. apply exp_inv in Hm.
  assert (H1 := f_equal re H). assert (H2 := f_equal im H). unfold cexp in H1, H2. cbn [re im mul R_ops texp tcos tsin R_eops] in H1, H2.
  rewrite Hm in H1, H2. pose proof (exp_pos (re w)) as Hp. apply Rmult_eq_reg_l in H1; [|lra]. apply Rmult_eq_reg_l in H2; [|lra].
  apply cplx_eq; [exact Hm|]. apply cos_sin_inj; assumption.
Qed.
Lemma cln_range z : - PI < im (cln z) <= PI.
Proof. rewrite cln_ok. apply atan2_range. Qed.
Lemma cln_cexp (z : Cx) : cln (cexp z) = z <-> - PI < im z <= PI.
Proof.
  split; intros H.
  - rewrite <- H. apply cln_range.
  - apply cexp_inj_strip; [apply cln_range|exact H|]. apply cexp_cln. apply cexp_nz.
Qed.
Lemma cexp_neg (z : Cx) : cmul (cexp z) (cexp (cneg z)) = cone.
Proof. rewrite <- cexp_add. replace (cadd z (cneg z)) with (czero : Cx) by ring. apply cexp_zero. Qed.

Lemma cmul_integral (z w : Cx) : cmul z w = czero -> z = czero \/ w = czero.
Proof. intros H. apply (f_equal cmod) in H. rewrite cmod_mul in H. replace (cmod czero) with 0 in H by (symmetry; apply cmod_zero; reflexivity).
  apply Rmult_integral in H. destruct H as [H|H]; [left|right]; apply cmod_zero; exact H. Qed.
Lemma cmul_reg (a z w : Cx) : a <> czero -> cmul a z = cmul a w -> z = w.
Proof.
  intros Ha H. assert (E : cmul a (csub z w) = czero). { replace (cmul a (csub z w)) with (csub (cmul a z) (cmul a w)) by ring. rewrite H. ring. }
  apply cmul_integral in E. destruct E as [E|E]; [contradiction|]. replace z with (cadd (csub z w) w) by ring. rewrite E. ring.
Qed.
Lemma cexp_neg_inv (z : Cx) : cexp (cneg z) = Cinv (cexp z).
Proof.
  apply (cmul_reg (cexp z)); [apply cexp_nz|]. rewrite cexp_neg. field. apply cexp_nz.
Qed.

(** ** Trigonometry through the exponential *)
Definition C2 : Cx := cadd cone cone.
Lemma Ci_sq : cmul Ci Ci = cneg cone. Proof. apply cplx_eq; cbv [Ci]; cred; ring. Qed.
Lemma Ci_nz : Ci <> czero. Proof. intro H. apply (f_equal im) in H. cbn in H. lra. Qed.
Lemma C2_nz : C2 <> czero. Proof. intro H. apply (f_equal re) in H. cbn in H. lra. Qed.
Lemma C2i_nz : cmul C2 Ci <> czero. Proof. intro H. apply (f_equal im) in H. cbn in H. lra. Qed.
Definition eip (z : Cx) : Cx := cexp (cmul Ci z).
Lemma eip_nz z : eip z <> czero. Proof. apply cexp_nz. Qed.
Lemma rot_ok (z : Cx) : mkC (neg (im z)) (re z) = cmul Ci z. Proof. destruct z. apply cplx_eq; cbv [Ci]; cred; ring. Qed.
Lemma nrot_ok (z : Cx) : mkC (im z) (neg (re z)) = cneg (cmul Ci z). Proof. destruct z. apply cplx_eq; cbv [Ci]; cred; ring. Qed.
Lemma nrot_exp (z : Cx) : cexp (mkC (im z) (neg (re z))) = Cinv (eip z).
Proof. rewrite nrot_ok. apply cexp_neg_inv. Qed.

Definition sinf (z : Cx) : Cx := Cdivt (csub (eip z) (Cinv (eip z))) (cmul C2 Ci).
Definition cosf (z : Cx) : Cx := Cdivt (cadd (eip z) (Cinv (eip z))) C2.
Lemma csin_ok (z : Cx) : csin z = Ret (sinf z).
Proof.
  unfold csin. replace (mkC zero (add one one) : Cx) with (cmul C2 Ci) by (apply cplx_eq; cbv [C2 Ci]; cred; ring).
  rewrite cdiv_ok by apply C2i_nz. rewrite rot_ok, nrot_exp. reflexivity.
Qed.
Lemma ccos_ok (z : Cx) : ccos z = Ret (cosf z).
Proof.
  unfold ccos. replace (mkC (add one one) zero : Cx) with C2 by (apply cplx_eq; cbv [C2 Ci]; cred; ring).
  rewrite cdiv_ok by apply C2_nz. rewrite rot_ok, nrot_exp. reflexivity.
Qed.
Lemma sin_cos_sq z : cadd (cmul (sinf z) (sinf z)) (cmul (cosf z) (cosf z)) = cone.
Proof.
  unfold sinf, cosf. pose proof (eip_nz z) as H. set (e := eip z) in *. pose proof C2_nz as H2. pose proof Ci_nz as Hi.
  assert (Hi2 : forall x : Cx, cmul Ci (cmul Ci x) = cneg x) by (intros; replace (cmul Ci (cmul Ci x)) with (cmul (cmul Ci Ci) x) by ring; rewrite Ci_sq; ring).
  apply (cmul_reg (cmul (cmul (cmul C2 Ci) (cmul C2 Ci)) (cmul e e))).
  - intro E. apply cmul_integral in E. destruct E as [E|E]; apply cmul_integral in E; destruct E as [E|E]; try contradiction; apply C2i_nz; exact E.
  - transitivity (cadd (cmul (csub (cmul e e) cone) (csub (cmul e e) cone)) (cmul (cmul Ci Ci) (cmul (cadd (cmul e e) cone) (cadd (cmul e e) cone)))).
    + field. repeat split; assumption.
    + replace (cmul (cmul (cmul C2 Ci) (cmul C2 Ci)) (cmul e e)) with (cmul (cmul Ci Ci) (cmul (cmul C2 C2) (cmul e e))) by ring. rewrite Ci_sq. unfold C2. ring.
Qed.
