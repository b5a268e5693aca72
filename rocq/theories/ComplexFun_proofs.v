(** Proofs about the elementary functions of complex numbers over exact reals. *)
From Coq Require Import Reals Lra Lia Bool Ring Field.
From Verif Require Import Outcome Scalar RealOps Elem_model Complex_model Ortho_proofs Complex_proofs.
Local Open Scope R_scope.
Add Field CxField2 : Cx_field.

(** ** Real and imaginary parts *)
Lemma exp_half_sum b : (exp b + exp (- b)) / 2 = cosh b. Proof. reflexivity. Qed.
Lemma cosh_sinh_sq b : cosh b * cosh b - sinh b * sinh b = 1.
Proof.
  unfold cosh, sinh. assert (H : exp b * exp (- b) = 1) by (rewrite <- exp_plus, Rplus_opp_r; apply exp_0).
  replace ((exp b + exp (- b)) / 2 * ((exp b + exp (- b)) / 2) - (exp b - exp (- b)) / 2 * ((exp b - exp (- b)) / 2)) with (exp b * exp (- b)) by field. exact H.
Qed.
Lemma cosh_pos b : 0 < cosh b.
Proof. unfold cosh. pose proof (exp_pos b). pose proof (exp_pos (- b)). lra. Qed.
Lemma cosh_ge_1 b : 1 <= cosh b.
Proof. pose proof (cosh_sinh_sq b) as H. pose proof (cosh_pos b). pose proof (Rle_0_sqr (sinh b)) as H1. unfold Rsqr in H1. nra. Qed.

Lemma cosh_opp b : cosh (- b) = cosh b.
Proof. unfold cosh. rewrite Ropp_involutive. lra. Qed.
Lemma sinh_opp b : sinh (- b) = - sinh b.
Proof. unfold sinh. rewrite Ropp_involutive. lra. Qed.

Lemma cosh_2 b : cosh (2 * b) = cosh b * cosh b + sinh b * sinh b.
Proof. unfold cosh, sinh. replace (2 * b) with (b + b) by ring. replace (- (b + b)) with (- b + - b) by ring. rewrite !exp_plus. field. Qed.
Lemma sinh_2 b : sinh (2 * b) = 2 * sinh b * cosh b.
Proof. unfold cosh, sinh. replace (2 * b) with (b + b) by ring. replace (- (b + b)) with (- b + - b) by ring. rewrite !exp_plus. field. Qed.

Lemma eip_ri a b : eip (mkC a b) = mkC (exp (- b) * cos a) (exp (- b) * sin a).
Proof. unfold eip. replace (cmul Ci (mkC a b)) with (mkC (- b) a) by (apply cplx_eq; cbv [Ci]; cred; ring). reflexivity. Qed.
Lemma eip_inv_ri a b : Cinv (eip (mkC a b)) = mkC (exp b * cos a) (- (exp b * sin a)).
Proof.
  unfold eip. rewrite <- cexp_neg_inv. replace (cneg (cmul Ci (mkC a b))) with (mkC b (- a)) by (apply cplx_eq; cbv [Ci]; cred; ring).
  apply cplx_eq; cbv [cexp re im mul R_ops texp tcos tsin R_eops]; [rewrite cos_neg|rewrite sin_neg]; ring.
Qed.
Lemma half_i (z : Cx) : Cdivt z (cmul C2 Ci) = mkC (im z / 2) (- re z / 2).
Proof. destruct z. unfold Cdivt, Cinv, C2, Ci. apply cplx_eq; cred; field. Qed.
Lemma half_r (z : Cx) : Cdivt z C2 = mkC (re z / 2) (im z / 2).
Proof. destruct z. unfold Cdivt, Cinv, C2. apply cplx_eq; cred; field. Qed.
Lemma sinf_ri a b : sinf (mkC a b) = mkC (sin a * cosh b) (cos a * sinh b).
Proof. unfold sinf. rewrite eip_inv_ri, eip_ri, half_i. unfold cosh, sinh. apply cplx_eq; cred; field. Qed.
Lemma cosf_ri a b : cosf (mkC a b) = mkC (cos a * cosh b) (- (sin a * sinh b)).
Proof. unfold cosf. rewrite eip_inv_ri, eip_ri, half_r. unfold cosh, sinh. apply cplx_eq; cred; field. Qed.

Lemma mk_eta (z : Cx) : z = mkC (re z) (im z). Proof. destruct z; reflexivity. Qed.

Lemma eip_add z w : eip (cadd z w) = cmul (eip z) (eip w).
Proof. unfold eip. rewrite <- cexp_add. f_equal. ring. Qed.
Lemma eip_neg z : eip (cneg z) = Cinv (eip z).
Proof. unfold eip. rewrite <- cexp_neg_inv. f_equal. ring. Qed.
Lemma C2sq_i : cmul (cmul C2 Ci) (cmul C2 Ci) = cneg (cmul C2 C2).
Proof. unfold C2, Ci. apply cplx_eq; cred; ring. Qed.

Lemma sinf_add z w : sinf (cadd z w) = cadd (cmul (sinf z) (cosf w)) (cmul (cosf z) (sinf w)).
Proof.
  unfold sinf, cosf. rewrite eip_add. pose proof (eip_nz z). pose proof (eip_nz w). pose proof C2_nz. pose proof Ci_nz.
  set (a := eip z) in *. set (b := eip w) in *.
  replace (Cdivt (csub (cmul a b) (Cinv (cmul a b))) (cmul C2 Ci)) with (cmul (Cdivt C2 C2) (Cdivt (csub (cmul a b) (Cinv (cmul a b))) (cmul C2 Ci))) by (field; repeat split; assumption).
  unfold C2 at 1. field. repeat split; assumption.
Qed.
Lemma cosf_add z w : cosf (cadd z w) = csub (cmul (cosf z) (cosf w)) (cmul (sinf z) (sinf w)).
Proof.
  unfold sinf, cosf. rewrite eip_add. pose proof (eip_nz z). pose proof (eip_nz w). pose proof C2_nz. pose proof Ci_nz.
  set (a := eip z) in *. set (b := eip w) in *.
  assert (E : cmul (Cdivt (csub a (Cinv a)) (cmul C2 Ci)) (Cdivt (csub b (Cinv b)) (cmul C2 Ci)) =
              cneg (Cdivt (cmul (csub a (Cinv a)) (csub b (Cinv b))) (cmul C2 C2))).
  { transitivity (Cdivt (cmul (csub a (Cinv a)) (csub b (Cinv b))) (cmul (cmul C2 Ci) (cmul C2 Ci))); [field; repeat split; assumption|].
    rewrite C2sq_i. field. repeat split; try assumption. intro H3. apply (f_equal re) in H3. unfold C2 in H3. cred. lra. }
  rewrite E.
  replace (Cdivt (cadd (cmul a b) (Cinv (cmul a b))) C2) with (cmul (Cdivt C2 C2) (Cdivt (cadd (cmul a b) (Cinv (cmul a b))) C2)) by (field; repeat split; first [assumption | apply one_neq_czero]).
  unfold C2 at 1. field. repeat split; first [assumption | apply one_neq_czero].
Qed.

(** ** Hyperbolic functions *)
Definition sinhf (z : Cx) : Cx := Cdivt (csub (cexp z) (cexp (cneg z))) C2.
Definition coshf (z : Cx) : Cx := Cdivt (cadd (cexp z) (cexp (cneg z))) C2.
Lemma eip_i z : eip (cmul Ci z) = Cinv (cexp z).
Proof. unfold eip. rewrite <- cexp_neg_inv. f_equal. replace (cmul Ci (cmul Ci z)) with (cmul (cmul Ci Ci) z) by ring. rewrite Ci_sq. ring. Qed.
Lemma csinh_ok (z : Cx) : csinh z = Ret (sinhf z).
Proof.
  unfold csinh. rewrite rot_ok, csin_ok. cbn [bind]. f_equal. replace (mkC zero (neg one) : Cx) with (cneg Ci) by (apply cplx_eq; cbv [Ci]; cred; ring).
  unfold sinf, sinhf. rewrite eip_i, cexp_neg_inv. pose proof (cexp_nz z). pose proof C2_nz. pose proof Ci_nz. field. repeat split; first [assumption | apply one_neq_czero].
Qed.
Lemma ccosh_ok (z : Cx) : ccosh z = Ret (coshf z).
Proof.
  unfold ccosh. rewrite rot_ok, ccos_ok. f_equal. unfold cosf, coshf. rewrite eip_i, cexp_neg_inv. pose proof (cexp_nz z). pose proof C2_nz. field. repeat split; first [assumption | apply one_neq_czero].
Qed.
Lemma cosh_sinh_f z : csub (cmul (coshf z) (coshf z)) (cmul (sinhf z) (sinhf z)) = cone.
Proof.
  unfold coshf, sinhf. rewrite cexp_neg_inv. pose proof (cexp_nz z). pose proof C2_nz. set (e := cexp z) in *.
  replace (cone : Cx) with (cmul (Cdivt C2 C2) (Cdivt C2 C2)) by (field; assumption). unfold C2 at 5 7. field. repeat split; first [assumption | apply one_neq_czero].
Qed.

(** ** Powers *)
Lemma cpow_ok (z w : Cx) : z <> czero -> cpow z w = cexp (cmul w (cln z)).
Proof.
  intros H. assert (Hp : 0 < cmod z). { pose proof (cmod_pos z). destruct (Req_dec (cmod z) 0) as [E|]; [apply cmod_zero in E; contradiction|lra]. }
  unfold cpow. rewrite cabs_cmod, cln_ok. destruct w as [c d]. cbn [re im carg]. cbn [tpow R_pops texp tln tcos tsin tatan2 R_eops mul add neg R_ops].
  rewrite R_pow_pos by assumption. unfold Rpower, cexp, cmul. cbn [re im texp tcos tsin R_eops mul add sub neg R_ops].
  set (l := ln (cmod z)). set (p := R_atan2 (im z) (re z)).
  assert (E : exp (c * l) * exp (- d * p) = exp (c * l - d * p)) by (rewrite <- exp_plus; f_equal; ring). rewrite E.
  replace (l * d + c * p) with (d * l + c * p) by ring. reflexivity.
Qed.
Definition Chalf : Cx := mkC (1 / (1 + 1)) 0.
Lemma Chalf_two : cadd Chalf Chalf = cone. Proof. unfold Chalf. apply cplx_eq; cred; field. Qed.
Lemma cpow_half_sq (z : Cx) : z <> czero -> cmul (cpow z Chalf) (cpow z Chalf) = z.
Proof.
  intros H. rewrite cpow_ok by exact H. rewrite <- cexp_add. replace (cadd (cmul Chalf (cln z)) (cmul Chalf (cln z))) with (cmul (cadd Chalf Chalf) (cln z)) by ring.
  rewrite Chalf_two. replace (cmul cone (cln z)) with (cln z) by ring. apply cexp_cln. exact H.
Qed.

(** ** Inverse functions *)
Lemma half_eq : (mkC (div one (add one one)) zero : Cx) = Chalf. Proof. reflexivity. Qed.

Lemma csin_carcsin (z : Cx) : csub cone (cmul z z) <> czero -> sinf (carcsin z) = z.
Proof.
  intros H. unfold carcsin. rewrite rot_ok, half_eq. set (w := cpow (csub cone (cmul z z)) Chalf).
  assert (Hw : cmul w w = csub cone (cmul z z)) by (apply cpow_half_sq; exact H).
  set (e := cadd (cmul Ci z) w).
  assert (He : cmul e (csub w (cmul Ci z)) = cone).
  { unfold e. transitivity (csub (cmul w w) (cmul (cmul Ci Ci) (cmul z z))); [ring|]. rewrite Hw, Ci_sq. ring. }
  assert (Hn : e <> czero). { intro E. rewrite E in He. apply one_neq_czero. rewrite <- He. ring. }
  assert (Hinv : Cinv e = csub w (cmul Ci z)). { apply (cmul_reg e); [exact Hn|]. rewrite He. field. exact Hn. }
  assert (Hei : eip (cmul (mkC zero (neg one)) (cln e)) = e).
  { unfold eip. transitivity (cexp (cln e)); [|apply cexp_cln; exact Hn]. f_equal. replace (mkC zero (neg one) : Cx) with (cneg Ci) by (apply cplx_eq; cbv [Ci]; cred; ring).
    transitivity (cneg (cmul (cmul Ci Ci) (cln e))); [ring|]. rewrite Ci_sq. ring. }
  unfold sinf. rewrite Hei, Hinv. unfold e. pose proof C2_nz. pose proof Ci_nz.
  transitivity (Cdivt (cmul C2 (cmul Ci z)) (cmul C2 Ci)); [unfold C2; field; split; assumption|field; split; assumption].
Qed.

Lemma cosf_pi2 (u : Cx) : cosf (csub (mkC (PI / (1 + 1)) 0) u) = sinf u.
Proof.
  assert (E : eip (mkC (PI / (1 + 1)) 0) = Ci).
  { rewrite eip_ri. replace (PI / (1 + 1)) with (PI / 2) by lra. rewrite cos_PI2, sin_PI2, Ropp_0, exp_0. unfold Ci. apply cplx_eq; cred; ring. }
  assert (E2 : eip (csub (mkC (PI / (1 + 1)) 0) u) = cmul Ci (Cinv (eip u))).
  { replace (csub (mkC (PI / (1 + 1)) 0) u) with (cadd (mkC (PI / (1 + 1)) 0) (cneg u)) by ring. rewrite eip_add, E, eip_neg. reflexivity. }
  unfold cosf, sinf. rewrite E2. pose proof (eip_nz u). pose proof C2_nz. pose proof Ci_nz. set (e := eip u) in *.
  apply (cmul_reg (cmul C2 (cmul Ci e))).
  - intro H2. apply cmul_integral in H2. destruct H2 as [H2|H2]; [contradiction|]. apply cmul_integral in H2. destruct H2; contradiction.
  - transitivity (cadd (cmul Ci Ci) (cmul e e)); [field; repeat split; assumption|]. rewrite Ci_sq. field. repeat split; assumption.
Qed.

Lemma ccos_carccos (z : Cx) : csub cone (cmul z z) <> czero -> cosf (carccos z) = z.
Proof. intros H. unfold carccos. transitivity (sinf (carcsin z)); [apply cosf_pi2|apply csin_carcsin; exact H]. Qed.

Lemma sinhf_carsinh (z : Cx) : cadd (cmul z z) cone <> czero -> sinhf (carsinh z) = z.
Proof.
  intros H. unfold carsinh. rewrite half_eq. set (w := cpow (cadd (cmul z z) cone) Chalf).
  assert (Hw : cmul w w = cadd (cmul z z) cone) by (apply cpow_half_sq; exact H). set (e := cadd z w).
  assert (He : cmul e (csub w z) = cone) by (unfold e; transitivity (csub (cmul w w) (cmul z z)); [ring|rewrite Hw; ring]).
  assert (Hn : e <> czero). { intro E. rewrite E in He. apply one_neq_czero. rewrite <- He. ring. }
  assert (Hinv : Cinv e = csub w z). { apply (cmul_reg e); [exact Hn|]. rewrite He. field. exact Hn. }
  unfold sinhf. rewrite cexp_neg_inv, cexp_cln by exact Hn. rewrite Hinv. unfold e. pose proof C2_nz. transitivity (Cdivt (cmul C2 z) C2); [unfold C2; field; assumption|field; assumption].
Qed.
Lemma coshf_carcosh (z : Cx) : csub (cmul z z) cone <> czero -> coshf (carcosh z) = z.
Proof.
  intros H. unfold carcosh. rewrite half_eq. set (w := cpow (csub (cmul z z) cone) Chalf).
  assert (Hw : cmul w w = csub (cmul z z) cone) by (apply cpow_half_sq; exact H). set (e := cadd z w).
  assert (He : cmul e (csub z w) = cone) by (unfold e; transitivity (csub (cmul z z) (cmul w w)); [ring|rewrite Hw; ring]).
  assert (Hn : e <> czero). { intro E. rewrite E in He. apply one_neq_czero. rewrite <- He. ring. }
  assert (Hinv : Cinv e = csub z w). { apply (cmul_reg e); [exact Hn|]. rewrite He. field. exact Hn. }
  unfold coshf. rewrite cexp_neg_inv, cexp_cln by exact Hn. rewrite Hinv. unfold e. pose proof C2_nz. transitivity (Cdivt (cmul C2 z) C2); [unfold C2; field; assumption|field; assumption].
Qed.

Lemma exp_half_ln_sq q : q <> czero -> cmul (cexp (cmul (cln q) Chalf)) (cexp (cmul (cln q) Chalf)) = q.
Proof.
  intros H. rewrite <- cexp_add. replace (cadd (cmul (cln q) Chalf) (cmul (cln q) Chalf)) with (cmul (cln q) (cadd Chalf Chalf)) by ring. rewrite Chalf_two.
  replace (cmul (cln q) cone) with (cln q) by ring. apply cexp_cln. exact H.
Qed.

Lemma csub_nz (z w : Cx) : z <> w -> csub z w <> czero.
Proof. intros H E. apply H. replace z with (cadd (csub z w) w) by ring. rewrite E. ring. Qed.

Lemma ctanh_q (u q z : Cx) : cmul (cexp u) (cexp u) = q -> cmul q (csub cone z) = cadd cone z -> z <> cone -> z <> cneg cone ->
  ctanh u = Ret z.
Proof.
  intros Hq Hz H1 H2. unfold ctanh. rewrite csinh_ok, ccosh_ok. cbn [bind]. pose proof (cexp_nz u) as He. set (e := cexp u) in *. pose proof C2_nz as HC.
  assert (Hc : coshf u = Cdivt (cadd q cone) (cmul C2 e)). { unfold coshf. rewrite cexp_neg_inv. fold e. rewrite <- Hq. field. split; assumption. }
  assert (Hs : sinhf u = Cdivt (csub q cone) (cmul C2 e)). { unfold sinhf. rewrite cexp_neg_inv. fold e. rewrite <- Hq. field. split; assumption. }
  assert (H1z : csub cone z <> czero) by (apply csub_nz; congruence).
  assert (Hq1 : cmul (cadd q cone) (csub cone z) = C2). { transitivity (cadd (cmul q (csub cone z)) (csub cone z)); [ring|]. rewrite Hz. unfold C2. ring. }
  assert (Hqn : cadd q cone <> czero). { intro E. rewrite E in Hq1. apply HC. rewrite <- Hq1. ring. }
  assert (Hq2 : csub q cone = cmul z (cadd q cone)). { transitivity (csub (cadd (cmul q (csub cone z)) (cmul q z)) cone); [ring|]. rewrite Hz. ring. }
  rewrite cdiv_ok.
  - f_equal. rewrite Hs, Hc, Hq2. field. repeat split; assumption.
  - rewrite Hc. intro E. apply Hqn. transitivity (cmul (Cdivt (cadd q cone) (cmul C2 e)) (cmul C2 e)); [field; split; assumption|]. rewrite E. ring.
Qed.

Lemma ctanh_cartanh (z : Cx) : z <> cone -> z <> cneg cone -> exists u, cartanh z = Ret u /\ ctanh u = Ret z.
Proof.
  intros H1 H2. unfold cartanh. rewrite half_eq. assert (H1z : csub cone z <> czero) by (apply csub_nz; congruence).
  rewrite cdiv_ok by exact H1z. cbn [bind]. eexists. split; [reflexivity|]. set (q := Cdivt (cadd cone z) (csub cone z)).
  assert (Hq : cmul q (csub cone z) = cadd cone z) by (unfold q; field; exact H1z).
  assert (Hqn : q <> czero). { intro E. rewrite E in Hq. apply H2. replace z with (csub (cadd cone z) cone) by ring. rewrite <- Hq. ring. }
  apply (ctanh_q _ q); try assumption. apply exp_half_ln_sq. exact Hqn.
Qed.

Lemma ccoth_carcoth (z : Cx) : z <> cone -> z <> cneg cone -> exists u, carcoth z = Ret u /\ ccoth u = Ret z.
Proof.
  intros H1 H2. unfold carcoth. rewrite half_eq. assert (H1z : csub z cone <> czero) by (apply csub_nz; congruence).
  rewrite cdiv_ok by exact H1z. cbn [bind]. eexists. split; [reflexivity|]. set (q := Cdivt (cadd z cone) (csub z cone)).
  assert (Hq : cmul q (csub z cone) = cadd z cone) by (unfold q; field; exact H1z).
  assert (Hqn : q <> czero). { intro E. rewrite E in Hq. apply H2. replace z with (csub (cadd z cone) cone) by ring. rewrite <- Hq. ring. }
  set (u := cmul (cln q) Chalf). assert (He2 : cmul (cexp u) (cexp u) = q) by (apply exp_half_ln_sq; exact Hqn).
  unfold ccoth. rewrite csinh_ok, ccosh_ok. cbn [bind]. pose proof (cexp_nz u) as He. set (e := cexp u) in *. pose proof C2_nz as HC.
  assert (Hc : coshf u = Cdivt (cadd q cone) (cmul C2 e)). { unfold coshf. rewrite cexp_neg_inv. fold e. rewrite <- He2. field. split; assumption. }
  assert (Hs : sinhf u = Cdivt (csub q cone) (cmul C2 e)). { unfold sinhf. rewrite cexp_neg_inv. fold e. rewrite <- He2. field. split; assumption. }
  assert (Hq1 : cmul (csub q cone) (csub z cone) = C2). { transitivity (csub (cmul q (csub z cone)) (csub z cone)); [ring|]. rewrite Hq. unfold C2. ring. }
  assert (Hqm : csub q cone <> czero). { intro E. rewrite E in Hq1. apply HC. rewrite <- Hq1. ring. }
  assert (Hq2 : cadd q cone = cmul z (csub q cone)). { transitivity (cadd (csub (cmul q z) (cmul q (csub z cone))) cone); [ring|]. rewrite Hq. ring. }
  rewrite cdiv_ok.
  - f_equal. rewrite Hs, Hc, Hq2. field. repeat split; assumption.
  - rewrite Hs. intro E. apply Hqm. transitivity (cmul (Cdivt (csub q cone) (cmul C2 e)) (cmul C2 e)); [field; split; assumption|]. rewrite E. ring.
Qed.

(** ** Arctangent *)
Lemma artanh_exp s : -1 < s < 1 -> exp (tatanh s) = sqrt (1 + s) / sqrt (1 - s).
Proof.
  intros H. cbn [tatanh R_eops]. rewrite <- sqrt_div_alt by lra.
  assert (Hp : 0 < (1 + s) / (1 - s)) by (apply Rdiv_lt_0_compat; lra).
  apply Rsqr_inj; [apply Rlt_le, exp_pos|apply sqrt_pos|]. rewrite Rsqr_sqrt by lra. unfold Rsqr. rewrite <- exp_plus.
  replace (ln ((1 + s) / (1 - s)) / 2 + ln ((1 + s) / (1 - s)) / 2) with (ln ((1 + s) / (1 - s))) by field. apply exp_ln. exact Hp.
Qed.
Lemma artanh_cs s : -1 < s < 1 -> cosh (tatanh s) = 1 / sqrt (1 - s * s) /\ sinh (tatanh s) = s / sqrt (1 - s * s).
Proof.
  intros H. unfold cosh, sinh. rewrite exp_Ropp. rewrite (artanh_exp s H).
  replace (1 - s * s) with ((1 + s) * (1 - s)) by ring. rewrite sqrt_mult by lra.
  assert (H1 : 0 < sqrt (1 + s)) by (apply sqrt_lt_R0; lra). assert (H2 : 0 < sqrt (1 - s)) by (apply sqrt_lt_R0; lra).
  assert (E1 : sqrt (1 + s) * sqrt (1 + s) = 1 + s) by (apply sqrt_sqrt; lra). assert (E2 : sqrt (1 - s) * sqrt (1 - s) = 1 - s) by (apply sqrt_sqrt; lra).
  set (p := sqrt (1 + s)) in *. set (q := sqrt (1 - s)) in *. split.
  - apply (Rmult_eq_reg_r (2 * (p * q))); [|nra]. replace ((p / q + / (p / q)) / 2 * (2 * (p * q))) with (p * p + q * q) by (field; lra).
    replace (1 / (p * q) * (2 * (p * q))) with 2 by (field; lra). lra.
  - apply (Rmult_eq_reg_r (2 * (p * q))); [|nra]. replace ((p / q - / (p / q)) / 2 * (2 * (p * q))) with (p * p - q * q) by (field; lra).
    replace (s / (p * q) * (2 * (p * q))) with (2 * s) by (field; lra). lra.
Qed.

(** A complex number w = a + ib with the given double-angle values has tangent x + iy. *)
Lemma ctan_double (a b x y d : R) : 0 < d -> sin (2 * a) = 2 * x / d -> sinh (2 * b) = 2 * y / d -> cos (2 * a) + cosh (2 * b) = 2 / d ->
  ctan (mkC a b) = Ret (mkC x y).
Proof.
  intros Hd Hs Hsh Hc. unfold ctan. rewrite csin_ok, ccos_ok. cbn [bind].
  pose proof (cosh_sinh_sq b) as Hb. pose proof (sin2_cos2 a) as Ha. unfold Rsqr in Ha.
  rewrite sin_2a in Hs. rewrite cos_2a in Hc. rewrite sinh_2 in Hsh. rewrite cosh_2 in Hc.
  rewrite sinf_ri, cosf_ri. set (sa := sin a) in *. set (ca := cos a) in *. set (ch := cosh b) in *. set (sh := sinh b) in *.
  assert (HN : ca * ch * (ca * ch) + sa * sh * (sa * sh) = 1 / d).
  { assert (E : 2 * (ca * ch * (ca * ch) + sa * sh * (sa * sh)) = ca * ca - sa * sa + (ch * ch + sh * sh)).
    { transitivity (2 * ((ca * ca) * (ch * ch) + (sa * sa) * (sh * sh))); [ring|].
      replace (sa * sa) with (1 - ca * ca) by lra. replace (sh * sh) with (ch * ch - 1) by lra. ring. }
    apply (Rmult_eq_reg_l 2); [|lra]. rewrite E, Hc. field. lra. }
  assert (Hid : 1 / d <> 0) by (unfold Rdiv; rewrite Rmult_1_l; apply Rinv_neq_0_compat; lra).
  rewrite cdiv_ok.
  - f_equal. unfold Cdivt, Cinv. apply cplx_eq; cred.
    + replace (ca * ch * (ca * ch) + - (sa * sh) * - (sa * sh)) with (1 / d) by (rewrite <- HN; ring).
      replace (sa * ch * (ca * ch / (1 / d)) - ca * sh * (- - (sa * sh) / (1 / d))) with (d * (sa * ca * (ch * ch - sh * sh))) by (field; lra).
      rewrite Hb. replace (sa * ca) with (x / d) by lra. field. lra.
    + replace (ca * ch * (ca * ch) + - (sa * sh) * - (sa * sh)) with (1 / d) by (rewrite <- HN; ring).
      replace (ca * sh * (ca * ch / (1 / d)) + sa * ch * (- - (sa * sh) / (1 / d))) with (d * (sh * ch * (sa * sa + ca * ca))) by (field; lra).
      rewrite Ha. replace (sh * ch) with (y / d) by lra. field. lra.
  - intro E. pose proof (f_equal re E) as E1. pose proof (f_equal im E) as E2. cred. apply Hid. rewrite <- HN. rewrite E1. replace (sa * sh) with 0 by lra. ring.
Qed.

Lemma eartanh_ok s : -1 < s < 1 -> eartanh s = Ret (tatanh s).
Proof.
  intros H. unfold eartanh. cbn [leb neg one R_ops]. unfold R_leb. destruct (Rle_dec s (- (1))); [lra|]. destruct (Rle_dec 1 s); [lra|]. reflexivity.
Qed.
Lemma eartanh_panic s : s <= -1 \/ 1 <= s -> eartanh s = Panic.
Proof.
  intros H. unfold eartanh. cbn [leb neg one R_ops]. unfold R_leb. destruct (Rle_dec s (- (1))); [reflexivity|]. destruct (Rle_dec 1 s); [reflexivity|]. lra.
Qed.

Lemma sum2_pos (a b : R) : a <> 0 \/ b <> 0 -> 0 < a * a + b * b.
Proof.
  intros H. pose proof (Rle_0_sqr a) as Ha. pose proof (Rle_0_sqr b) as Hb. unfold Rsqr in *.
  destruct H as [H|H]; apply Rsqr_pos_lt in H; unfold Rsqr in H; lra.
Qed.

Lemma carctan_arg (x y : R) : x <> 0 \/ (y <> 1 /\ y <> -1) -> -1 < 2 * y / (x * x + y * y + 1) < 1.
Proof.
  intros H. assert (HN : 0 < x * x + y * y + 1) by nra.
  assert (H1 : 0 < x * x + (y - 1) * (y - 1)). { apply sum2_pos. destruct H as [H|[H H']]; [left; exact H|right; lra]. }
  assert (H2 : 0 < x * x + (y + 1) * (y + 1)). { apply sum2_pos. destruct H as [H|[H H']]; [left; exact H|right; lra]. }
  split.
  - apply (Rmult_lt_reg_r (x * x + y * y + 1)); [exact HN|]. unfold Rdiv. rewrite Rmult_assoc, Rinv_l by lra. lra.
  - apply (Rmult_lt_reg_r (x * x + y * y + 1)); [exact HN|]. unfold Rdiv. rewrite Rmult_assoc, Rinv_l by lra. lra.
Qed.

Lemma R_eqb_false x y : R_eqb x y = false <-> x <> y.
Proof. split; intros H. - intro E. apply R_eqb_true in E. congruence. - destruct (R_eqb x y) eqn:E; [apply R_eqb_true in E; contradiction|reflexivity]. Qed.

Lemma ctan_carctan (z : Cx) : z <> Ci -> z <> cneg Ci -> exists w, carctan z = Ret w /\ ctan w = Ret z.
Proof.
  intros Hi Hmi. destruct z as [x y].
  assert (Hd : x <> 0 \/ (y <> 1 /\ y <> -1)).
  { destruct (Req_dec x 0) as [->|]; [right|left; assumption]. split; intro; subst y; [apply Hi|apply Hmi]; unfold Ci; apply cplx_eq; cbn; lra. }
  pose proof (carctan_arg x y Hd) as Hs. set (N := x * x + y * y + 1) in *. set (s := 2 * y / N) in *.
  assert (HN : 0 < N) by (unfold N; nra).
  unfold carctan. cbn [re im]. cbn [eqb leb ltb tabs zero one add sub mul div neg R_ops tatan tpi R_eops].
  replace ((1 + 1) * y / (x * x + y * y + 1)) with s by (unfold s, N; f_equal; ring). rewrite eartanh_ok by exact Hs. cbn [bind].
  eexists. split; [reflexivity|].
  destruct (artanh_cs s Hs) as [Hch Hsh].
  set (D := N * N - 4 * (y * y)). assert (HD : 0 < D). { assert (E : D = (x * x + (y - 1) * (y - 1)) * (x * x + (y + 1) * (y + 1))) by (unfold D, N; ring). rewrite E.
    apply Rmult_lt_0_compat; apply sum2_pos; destruct Hd as [H|[H H']]; [left; exact H|right; lra|left; exact H|right; lra]. }
  assert (Hsd : 0 < sqrt D) by (apply sqrt_lt_R0; exact HD).
  assert (Hq : sqrt (1 - s * s) = sqrt D / N).
  { replace (1 - s * s) with (D / (N * N)) by (unfold s, D; field; lra). rewrite sqrt_div_alt by nra. f_equal. apply sqrt_square. lra. }
  rewrite Hq in Hch, Hsh.
  assert (Ech : cosh (2 * (tatanh s / 2)) = N / sqrt D) by (replace (2 * (tatanh s / 2)) with (tatanh s) by field; rewrite Hch; field; lra).
  assert (Esh : sinh (2 * (tatanh s / 2)) = 2 * y / sqrt D) by (replace (2 * (tatanh s / 2)) with (tatanh s) by field; rewrite Hsh; unfold s; field; lra).
  replace (1 + 1) with 2 by ring. change (ln ((1 + s) / (1 - s)) / 2) with (tatanh s) in *.
  destruct (R_eqb x 0) eqn:Ex.
  - apply R_eqb_true in Ex. subst x. destruct Hd as [Hd|[Hy1 Hy2]]; [lra|].
    assert (EN : N = 1 + y * y) by (unfold N; ring). assert (ED : D = (1 - y * y) * (1 - y * y)) by (unfold D; rewrite EN; ring).
    unfold R_leb, R_ltb. destruct (Rle_dec (Rabs y) 1) as [Hy|Hy].
    + assert (Hyy : y * y < 1). { assert (Hab : Rabs y < 1). { destruct (Rle_lt_or_eq_dec _ _ Hy) as [|E]; [assumption|]. exfalso. unfold Rabs in E. destruct (Rcase_abs y); lra. }
        pose proof (Rabs_pos y). replace (y * y) with (Rabs y * Rabs y) by (rewrite <- Rabs_mult; apply Rabs_right; nra). nra. }
      assert (ES : sqrt D = 1 - y * y) by (rewrite ED; apply sqrt_square; lra).
      apply (ctan_double _ _ _ _ (sqrt D) Hsd); rewrite ?Ech, ?Esh; try reflexivity.
      * rewrite Rmult_0_r, sin_0. field. lra.
      * rewrite Rmult_0_r, cos_0, ES, EN. field. lra.
    + assert (Hyy : 1 < y * y). { replace (y * y) with (Rabs y * Rabs y) by (rewrite <- Rabs_mult; apply Rabs_right; nra). nra. }
      assert (ES : sqrt D = y * y - 1) by (rewrite ED; replace ((1 - y * y) * (1 - y * y)) with ((y * y - 1) * (y * y - 1)) by ring; apply sqrt_square; lra).
      destruct (Rlt_dec 0 y).
      * apply (ctan_double _ _ _ _ (sqrt D) Hsd); rewrite ?Ech, ?Esh; try reflexivity.
        -- replace (2 * (PI / 2)) with PI by field. rewrite sin_PI. field. lra.
        -- replace (2 * (PI / 2)) with PI by field. rewrite cos_PI, ES, EN. field. lra.
      * apply (ctan_double _ _ _ _ (sqrt D) Hsd); rewrite ?Ech, ?Esh; try reflexivity.
        -- replace (2 * (- PI / 2)) with (- PI) by field. rewrite sin_neg, sin_PI. field. lra.
        -- replace (2 * (- PI / 2)) with (- PI) by field. rewrite cos_neg, cos_PI, ES, EN. field. lra.
  - apply R_eqb_false in Ex. set (t := (x * x + y * y - 1) / (2 * x)).
    assert (Ht : sqrt (1 + t * t) = sqrt D / (2 * Rabs x)).
    { unfold t. rewrite sqrt_ratio by lra. replace (2 * x * (2 * x) + (x * x + y * y - 1) * (x * x + y * y - 1)) with D by (unfold D, N; ring).
      rewrite Rabs_mult, (Rabs_right 2) by lra. reflexivity. }
    unfold R_ltb. destruct (Rlt_dec 0 x) as [Hx|Hx].
    + rewrite Rabs_right in Ht by lra. assert (Hc := cos_atan_r t). assert (Hsn := sin_atan_r t). rewrite Ht in Hc, Hsn.
      apply (ctan_double _ _ _ _ (sqrt D) Hsd); rewrite ?Ech, ?Esh; try reflexivity.
      * replace (2 * ((atan t + PI / 2) / 2)) with (atan t + PI / 2) by field. rewrite sin_plus, sin_PI2, cos_PI2, Hc. field. lra.
      * replace (2 * ((atan t + PI / 2) / 2)) with (atan t + PI / 2) by field. rewrite cos_plus, sin_PI2, cos_PI2, Hsn. unfold t, N. field. lra.
    + rewrite Rabs_left in Ht by lra. assert (Hc := cos_atan_r t). assert (Hsn := sin_atan_r t). rewrite Ht in Hc, Hsn.
      apply (ctan_double _ _ _ _ (sqrt D) Hsd); rewrite ?Ech, ?Esh; try reflexivity.
      * replace (2 * ((atan t - PI / 2) / 2)) with (atan t - PI / 2) by field. rewrite sin_minus, sin_PI2, cos_PI2, Hc. field. lra.
      * replace (2 * ((atan t - PI / 2) / 2)) with (atan t - PI / 2) by field. rewrite cos_minus, sin_PI2, cos_PI2, Hsn. unfold t, N. field. lra.
Qed.

Lemma carctan_panics : carctan Ci = Panic /\ carctan (cneg Ci) = Panic.
Proof.
  unfold carctan, Ci, cneg. cbn [re im]. cbn [zero one add sub mul div neg R_ops].
  split; rewrite eartanh_panic; try reflexivity; [right|left].
  - match goal with |- _ <= ?v => replace v with 1 by field end. lra.
  - match goal with |- ?v <= _ => replace v with (-1) by field end. lra.
Qed.

Lemma cinv_nz (z : Cx) : z <> czero -> Cinv z <> czero.
Proof. intros H E. apply one_neq_czero. replace cone with (cmul z (Cinv z)) by (field; exact H). rewrite E. ring. Qed.
Lemma cinv_inv (z : Cx) : z <> czero -> Cdivt cone (Cdivt cone z) = z.
Proof. intros H. field. split; [|split]; [exact one_neq_czero|exact H|exact one_neq_czero] || (repeat split; try exact one_neq_czero; exact H). Qed.
Lemma csec_ok (z : Cx) : cosf z <> czero -> csec z = Ret (Cdivt cone (cosf z)).
Proof. intros H. unfold csec. rewrite ccos_ok. cbn [bind]. apply cdiv_ok, H. Qed.
Lemma ccsc_ok (z : Cx) : sinf z <> czero -> ccsc z = Ret (Cdivt cone (sinf z)).
Proof. intros H. unfold ccsc. rewrite csin_ok. cbn [bind]. apply cdiv_ok, H. Qed.
Lemma cdivt_nz (z : Cx) : z <> czero -> Cdivt cone z <> czero.
Proof. intros H E. apply (cinv_nz z H). rewrite <- E. unfold Cdivt. ring. Qed.
Lemma recip_sq_nz (z : Cx) : z <> czero -> z <> cone -> z <> cneg cone -> csub cone (cmul (Cdivt cone z) (Cdivt cone z)) <> czero.
Proof.
  intros H0 H1 H2 E. assert (E2 : cmul (csub z cone) (cadd z cone) = czero).
  { transitivity (cmul (cmul z z) (csub cone (cmul (Cdivt cone z) (Cdivt cone z)))); [field; exact H0|rewrite E; ring]. }
  destruct (cmul_integral _ _ E2) as [E3|E3].
  - apply (csub_nz z cone H1 E3).
  - apply (csub_nz z (cneg cone) H2). rewrite <- E3. ring.
Qed.
Lemma carcsec_sec (z : Cx) : z <> czero -> z <> cone -> z <> cneg cone -> exists u, carcsec z = Ret u /\ csec u = Ret z.
Proof.
  intros H0 H1 H2. unfold carcsec.
  match goal with |- context [if ?b then _ else _] => destruct b eqn:Eb end.
  - exfalso. apply andb_true_iff in Eb. destruct Eb as [Ei Er]. cbn [eqb R_ops one zero neg] in *. apply R_eqb_true in Ei.
    apply orb_true_iff in Er. rewrite orb_true_iff in Er. destruct z as [x y]. cbn [re im] in *. subst y.
    destruct Er as [[Er|Er]|Er]; apply R_eqb_true in Er; subst x.
    + apply H2. apply cplx_eq; cred; ring.
    + apply H0. reflexivity.
    + apply H1. reflexivity.
  - rewrite cdiv_ok by exact H0. cbn [bind]. eexists. split; [reflexivity|].
    assert (Hc : cosf (carccos (Cdivt cone z)) = Cdivt cone z) by (apply ccos_carccos, recip_sq_nz; assumption).
    rewrite csec_ok; rewrite Hc; [|apply cdivt_nz; exact H0]. rewrite cinv_inv by exact H0. reflexivity.
Qed.
Lemma carccsc_csc (z : Cx) : z <> czero -> z <> cone -> z <> cneg cone -> exists u, carccsc z = Ret u /\ ccsc u = Ret z.
Proof.
  intros H0 H1 H2. unfold carccsc. rewrite cdiv_ok by exact H0. cbn [bind]. eexists. split; [reflexivity|].
  assert (Hc : sinf (carcsin (Cdivt cone z)) = Cdivt cone z) by (apply csin_carcsin, recip_sq_nz; assumption).
  rewrite ccsc_ok; rewrite Hc; [|apply cdivt_nz; exact H0]. rewrite cinv_inv by exact H0. reflexivity.
Qed.
Lemma recip_i (z : Cx) : z <> czero -> z <> Ci -> z <> cneg Ci -> Cdivt cone z <> Ci /\ Cdivt cone z <> cneg Ci.
Proof.
  intros H0 H1 H2. split; intros E.
  - apply H2. transitivity (Cdivt cone (Cdivt cone z)); [symmetry; apply cinv_inv; exact H0|]. rewrite E. unfold Cdivt, Cinv, Ci. apply cplx_eq; cred; field.
  - apply H1. transitivity (Cdivt cone (Cdivt cone z)); [symmetry; apply cinv_inv; exact H0|]. rewrite E. unfold Cdivt, Cinv, Ci. apply cplx_eq; cred; field.
Qed.
Lemma carccot_cot (z : Cx) : z <> czero -> z <> Ci -> z <> cneg Ci -> exists u, carccot z = Ret u /\ ccot u = Ret z.
Proof.
  intros H0 H1 H2. unfold carccot.
  match goal with |- context [if ?b then _ else _] => destruct b eqn:Eb end.
  - exfalso. apply andb_true_iff in Eb. destruct Eb as [Er Ei]. cbn [eqb R_ops one zero neg] in *. apply R_eqb_true in Er.
    apply orb_true_iff in Ei. destruct z as [x y]. cbn [re im] in *. subst x.
    destruct Ei as [Ei|Ei]; apply R_eqb_true in Ei; subst y.
    + apply H1. reflexivity.
    + apply H2. unfold Ci. apply cplx_eq; cred; ring.
  - rewrite cdiv_ok by exact H0. cbn [bind]. destruct (recip_i z H0 H1 H2) as [H3 H4].
    destruct (ctan_carctan _ H3 H4) as (w & E1 & E2). exists w. split; [exact E1|]. unfold ccot. rewrite E2. cbn [bind].
    rewrite cdiv_ok by (apply cdivt_nz; exact H0). rewrite cinv_inv by exact H0. reflexivity.
Qed.
Lemma carccot_panics : carccot (czero : Cx) = Panic /\ carccot Ci = Panic /\ carccot (cneg Ci) = Panic.
Proof.
  split; [|split].
  - unfold carccot. cbn [re im czero zero one neg eqb R_ops]. rewrite (proj2 (R_eqb_true 0 0)) by reflexivity.
    rewrite (proj2 (R_eqb_false 0 1)) by lra. rewrite (proj2 (R_eqb_false 0 (- (1)))) by lra. cbn [andb orb]. rewrite cdiv_zero. reflexivity.
  - unfold carccot, Ci. cbn [re im zero one neg eqb R_ops]. rewrite (proj2 (R_eqb_true 0 0)) by reflexivity. rewrite (proj2 (R_eqb_true 1 1)) by reflexivity. reflexivity.
  - unfold carccot, Ci, cneg. cbn [re im zero one neg eqb R_ops]. rewrite (proj2 (R_eqb_true (- 0) 0)) by ring. rewrite (proj2 (R_eqb_true (- (1)) (- (1)))) by reflexivity. rewrite orb_true_r. reflexivity.
Qed.
Lemma ctan_panics_iff (z : Cx) : ctan z = Panic <-> cosf z = czero.
Proof.
  unfold ctan. rewrite csin_ok, ccos_ok. cbn [bind]. split; intros H.
  - destruct (ceqb (cosf z) czero) eqn:E.
    + apply andb_true_iff in E. destruct E as [E1 E2]. apply R_eqb_true in E1. apply R_eqb_true in E2. apply cplx_eq; assumption.
    + assert (cosf z <> czero). { intro E2. rewrite E2 in E. unfold ceqb in E. cbn [re im czero zero eqb R_ops] in E. rewrite (proj2 (R_eqb_true 0 0)) in E by reflexivity. discriminate. }
      rewrite cdiv_ok in H by assumption. discriminate.
  - rewrite H. apply cdiv_zero.
Qed.
Lemma sinf_re x : sinf (mkC x 0) = mkC (sin x) 0.
Proof. rewrite sinf_ri, cosh_0, sinh_0. apply cplx_eq; cred; ring. Qed.
Lemma cosf_re x : cosf (mkC x 0) = mkC (cos x) 0.
Proof. rewrite cosf_ri, cosh_0, sinh_0. apply cplx_eq; cred; ring. Qed.
Lemma cexp_re x : cexp (mkC x 0) = mkC (exp x) 0.
Proof. unfold cexp. cbn [re im texp tcos tsin R_eops mul R_ops]. rewrite cos_0, sin_0. apply cplx_eq; cred; ring. Qed.
Lemma cos_zero_im (z : Cx) : cosf z = czero -> im z = 0.
Proof.
  destruct z as [a b]. rewrite cosf_ri. intros E. pose proof (f_equal re E) as E1. pose proof (f_equal im E) as E2. cbn in E1, E2. cbn [im].
  assert (Ec : cos a = 0) by (pose proof (cosh_pos b); nra).
  assert (Es : sin a <> 0) by (intro Hs; pose proof (sin2_cos2 a) as H; rewrite Ec, Hs in H; unfold Rsqr in H; lra).
  assert (Eb : sinh b = 0) by (assert (H : sin a * sinh b = 0) by lra; apply Rmult_integral in H; tauto).
  destruct (Rtotal_order b 0) as [H|[H|H]]; [|exact H|]; apply sinh_lt in H; rewrite sinh_0 in H; lra.
Qed.
