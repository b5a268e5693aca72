(** Reciprocal trigonometric and hyperbolic functions of complex numbers. *)
From Coq Require Import Reals Lra Bool.
From Verif Require Import Outcome Scalar RealOps Elem_model Complex_model Complex_proofs ComplexFun_proofs ComplexProps_proofs.
Local Open Scope R_scope.
Add Field CxField3 : Cx_field.

Lemma recip_facts (z w : Cx) : (cdiv z w = Panic <-> w = mkC 0 0) /\ forall q, cdiv z w = Ret q -> cmul q w = z.
Proof.
  change (mkC 0 0) with (czero : Cx). destruct (czero_dec w) as [->|H].
  - rewrite cdiv_zero. split; [tauto|discriminate].
  - rewrite cdiv_ok by exact H. split; [split; [discriminate|contradiction]|]. intros q Eq. injection Eq as <-. field. exact H.
Qed.
Lemma sec_csc_facts (z : Cx) : exists s c, csin z = Ret s /\ ccos z = Ret c /\
  (csec z = Panic <-> c = mkC 0 0) /\ (forall t, csec z = Ret t -> cmul t c = mkC 1 0) /\
  (ccsc z = Panic <-> s = mkC 0 0) /\ (forall t, ccsc z = Ret t -> cmul t s = mkC 1 0) /\
  (ccot z = Panic <-> c = mkC 0 0 \/ s = mkC 0 0) /\ (forall t, ccot z = Ret t -> cmul t s = c).
Proof.
  exists (sinf z), (cosf z). split; [apply csin_ok|]. split; [apply ccos_ok|].
  destruct (recip_facts cone (cosf z)) as (C1 & C2). destruct (recip_facts cone (sinf z)) as (S1 & S2).
  unfold csec, ccsc, ccot, ctan. rewrite csin_ok, ccos_ok. cbn [bind].
  split; [exact C1|]. split; [exact C2|]. split; [exact S1|]. split; [exact S2|].
  change (mkC 0 0) with (czero : Cx) in *. destruct (czero_dec (cosf z)) as [E|E].
  - rewrite E, cdiv_zero. cbn [bind]. split; [tauto|discriminate].
  - rewrite cdiv_ok by exact E. cbn [bind]. destruct (recip_facts cone (Cdivt (sinf z) (cosf z))) as (Q1 & Q2). change (mkC 0 0) with (czero : Cx) in *. split.
    + rewrite Q1. split; [|intros [H|H]; [contradiction|rewrite H; field; exact E]].
      intros H. right. transitivity (cmul (Cdivt (sinf z) (cosf z)) (cosf z)); [field; exact E|]. rewrite H. ring.
    + intros t Ht. specialize (Q2 t Ht). transitivity (cmul (cmul t (Cdivt (sinf z) (cosf z))) (cosf z)); [field; exact E|]. rewrite Q2. ring.
Qed.
Lemma rot_sin (z : Cx) : sinf (cmul Ci z) = cmul Ci (sinhf z) /\ cosf (cmul Ci z) = coshf z.
Proof.
  unfold sinf, sinhf, cosf, coshf. rewrite eip_i, cexp_neg_inv. pose proof (cexp_nz z). pose proof C2_nz. pose proof Ci_nz.
  split; [|field; repeat split; first [assumption | apply one_neq_czero]].
  assert (II : Cinv Ci = cneg Ci) by (apply cplx_eq; unfold Cinv, Ci; cred; field).
  transitivity (cmul (cmul (Cinv C2) (Cinv Ci)) (csub (Cinv (cexp z)) (cexp z))); [field; repeat split; first [assumption | apply one_neq_czero]|].
  rewrite II. field. repeat split; first [assumption | apply one_neq_czero].
Qed.
Lemma hyp_facts (z : Cx) : exists s c, csinh z = Ret s /\ ccosh z = Ret c /\
  (ctanh z = Panic <-> c = mkC 0 0) /\ (forall t, ctanh z = Ret t -> cmul t c = s) /\
  (ccoth z = Panic <-> s = mkC 0 0) /\ (forall t, ccoth z = Ret t -> cmul t s = c) /\
  (csech z = Panic <-> c = mkC 0 0) /\ (forall t, csech z = Ret t -> cmul t c = mkC 1 0) /\
  (ccsch z = Panic <-> s = mkC 0 0) /\ (forall t, ccsch z = Ret t -> cmul t s = mkC (-1) 0).
Proof.
  exists (sinhf z), (coshf z). split; [apply csinh_ok|]. split; [apply ccosh_ok|].
  destruct (recip_facts (sinhf z) (coshf z)) as (T1 & T2). destruct (recip_facts (coshf z) (sinhf z)) as (H1 & H2).
  unfold ctanh, ccoth. rewrite csinh_ok, ccosh_ok. cbn [bind]. split; [exact T1|]. split; [exact T2|]. split; [exact H1|]. split; [exact H2|].
  destruct (rot_sin z) as (RS & RC). unfold csech, ccsch, csec, ccsc. rewrite rot_ok, ccos_ok, csin_ok. cbn [bind]. rewrite RS, RC.
  destruct (recip_facts cone (coshf z)) as (C1 & C2). split; [exact C1|]. split; [exact C2|].
  destruct (recip_facts cone (cmul Ci (sinhf z))) as (S1 & S2). change (mkC 0 0) with (czero : Cx) in *. destruct (czero_dec (sinhf z)) as [E|E].
  - assert (E' : cmul Ci (sinhf z) = czero) by (rewrite E; ring). rewrite E', cdiv_zero. cbn [bind]. split; [tauto|discriminate].
  - destruct (cdiv cone (cmul Ci (sinhf z))) as [q|] eqn:Eq; cbn [bind].
    + split; [split; [discriminate|contradiction]|]. intros t Ht. injection Ht as <-. specialize (S2 q eq_refl). rewrite neg_one_c.
      match goal with |- cmul (cmul ?k q) _ = _ => replace k with (cneg Ci) by (apply cplx_eq; cbv [Ci]; cred; ring) end. transitivity (cneg (cmul q (cmul Ci (sinhf z)))); [ring|rewrite S2; reflexivity].
    + exfalso. apply E. assert (Z : cmul Ci (sinhf z) = czero) by (apply S1; reflexivity). destruct (cmul_integral _ _ Z) as [F|F]; [exfalso; exact (Ci_nz F)|exact F].
Qed.
Lemma arsech_arcsch_facts (z : Cx) : z <> mkC 0 0 ->
  (z <> mkC 1 0 -> z <> mkC (-1) 0 -> exists u, carsech z = Ret u /\ csech u = Ret z) /\
  (z <> mkC 0 1 -> z <> mkC 0 (-1) -> exists u, carcsch z = Ret u /\ ccsch u = Ret (cneg z)).
Proof.
  rewrite neg_one_c, neg_i_c. change (mkC 0 0) with (czero : Cx). change (mkC 0 1) with Ci. change (mkC 1 0) with (cone : Cx). intros H0. split; intros H1 H2.
  - unfold carsech. rewrite cdiv_ok by exact H0. cbn [bind]. eexists. split; [reflexivity|].
    assert (N : csub (cmul (Cdivt cone z) (Cdivt cone z)) cone <> czero).
    { intros E. apply (recip_sq_nz z H0 H1 H2). transitivity (cneg (csub (cmul (Cdivt cone z) (Cdivt cone z)) cone)); [ring|rewrite E; ring]. }
    pose proof (coshf_carcosh _ N) as Hc. unfold csech, csec. rewrite rot_ok, ccos_ok. cbn [bind]. destruct (rot_sin (carcosh (Cdivt cone z))) as (_ & ->).
    rewrite Hc, cdiv_ok by (apply cdivt_nz; exact H0). rewrite cinv_inv by exact H0. reflexivity.
  - unfold carcsch. rewrite cdiv_ok by exact H0. cbn [bind]. eexists. split; [reflexivity|].
    destruct (recip_i z H0 H1 H2) as (N1 & N2).
    assert (Hs : sinhf (carsinh (Cdivt cone z)) = Cdivt cone z) by (apply sinhf_carsinh, sq_add_one; [exact N1|rewrite neg_i_c; exact N2]).
    destruct (hyp_facts (carsinh (Cdivt cone z))) as (s & c & Es & _ & _ & _ & _ & _ & _ & _ & P & V).
    rewrite csinh_ok, Hs in Es. injection Es as <-.
    destruct (ccsch (carsinh (Cdivt cone z))) as [t|] eqn:Et.
    + f_equal. specialize (V t eq_refl). rewrite neg_one_c in V. transitivity (cmul (cmul t (Cdivt cone z)) z); [field; exact H0|]. rewrite V. ring.
    + exfalso. apply (cdivt_nz z H0). apply P. reflexivity.
Qed.
Lemma operate_mul_facts (T : Type) (O : Ops T) : RingLaws O -> forall z w : cplx T, coperate_mul z w = cmul z w.
Proof. intros L z w. unfold coperate_mul, cmul. f_equal. apply (Ring_theory.Radd_comm (rl_ring O L)). Qed.
Lemma order_facts (z w : Cx) : (cltb z w = true <-> re z < re w) /\ (cleb z w = true <-> re z <= re w).
Proof. unfold cltb, cleb. split; [apply R_ltb_true|apply R_leb_true]. Qed.
Lemma csch_at_1 : exists t, ccsch (mkC 1 0 : Cx) = Ret t /\ re t < 0.
Proof.
  destruct (hyp_facts (mkC 1 0)) as (s & c & Es & Ec & _ & _ & _ & _ & _ & _ & P & V).
  assert (S : s = mkC (sinh 1) 0).
  { destruct (sinh_cosh_facts (mkC 1 0)) as (s' & c' & Es' & Ec' & _ & E1 & E2). rewrite Es in Es'. injection Es' as <-. rewrite Ec in Ec'. injection Ec' as <-.
    rewrite (proj1 (proj2 (proj2 (proj2 cexp_facts)))) in E1. replace (cneg (mkC 1 0)) with (mkC (- 1) 0 : Cx) in E2 by (apply cplx_eq; cred; cbn; ring).
    rewrite (proj1 (proj2 (proj2 (proj2 cexp_facts)))) in E2. destruct s as [s1 s2], c as [c1 c2]. unfold cadd, csub in *. cbn [re im] in *. cbn [add sub R_ops] in *.
    injection E1 as E1 E3. injection E2 as E2 E4. replace (exp (- 1)) with (exp (- (1))) in E2 by (f_equal; lra). apply cplx_eq; cbn [re im]; unfold sinh; lra. }
  assert (SP : 0 < sinh 1) by (unfold sinh; pose proof (exp_increasing (- (1)) 1); lra).
  destruct (ccsch (mkC 1 0)) as [t|].
  - exists t. split; [reflexivity|]. specialize (V t eq_refl). rewrite S in V. destruct t as [t1 t2]. unfold cmul in V. cbn [re im] in *. cbn [add sub mul R_ops] in V. injection V as V _.
    apply Rmult_lt_reg_r with (sinh 1); lra.
  - exfalso. assert (s = mkC 0 0) by (apply P; reflexivity). rewrite S in H. injection H as H. lra.
Qed.
Lemma arctan2_facts (x y : R) : x <> 0 \/ y <> 0 -> let r := sqrt (x * x + y * y) in let t := earctan2 y x in
  - PI < t <= PI /\ x = r * cos t /\ y = r * sin t.
Proof.
  intros H. cbv zeta. unfold earctan2. cbn [tatan2 R_eops]. split; [apply atan2_range|].
  assert (N : (mkC x y : Cx) <> czero) by (intros E; injection E as -> ->; destruct H as [H|H]; apply H; reflexivity).
  pose proof (polar (mkC x y) N) as P. unfold cmod in P. cbn [re im] in P. injection P as P Q. split; assumption.
Qed.
