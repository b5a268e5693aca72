(** The statements of P_Complex.v assembled from Complex_proofs.v and ComplexFun_proofs.v. *)
From Coq Require Import Reals Lra Bool.
From Coq Require Import Floats.SpecFloat.
From Verif Require Import Outcome Scalar RealOps Elem_model Complex_model Ortho_proofs Complex_proofs ComplexFun_proofs.
Local Open Scope R_scope.

Section Ring.
Context {T : Type} {O : Ops T} (L : RingLaws O).
Add Ring CxEmbedRing : (rl_ring O L).
Lemma cplx_embed :
  cmul (mkC zero one) (mkC zero one) = cneg (cone : cplx T) /\
  (forall x y : T, mkC x y = cadd (mkC x zero) (cmul (mkC zero one) (mkC y zero))) /\
  (forall x y : T, cadd (mkC x zero) (mkC y zero) = mkC (add x y) zero) /\
  (forall x y : T, cmul (mkC x zero) (mkC y zero) = mkC (mul x y) zero).
Proof. repeat split; intros; apply cplx_eq; cbn [re im cadd cmul cneg cone czero]; ring. Qed.
End Ring.

Lemma ceqb_iff (z w : Cx) : ceqb z w = true <-> z = w.
Proof.
  unfold ceqb. rewrite andb_true_iff. cbn [eqb R_ops]. rewrite !R_eqb_true. split.
  - intros [H1 H2]. apply cplx_eq; assumption.
  - intros ->. split; reflexivity.
Qed.
Lemma czero_dec (w : Cx) : w = czero \/ w <> czero.
Proof. destruct (ceqb w czero) eqn:E; [left; apply ceqb_iff; exact E|right; intro H; apply ceqb_iff in H; congruence]. Qed.
Lemma cdiv_panics_iff (z w : Cx) : cdiv z w = Panic <-> w = mkC 0 0.
Proof.
  change (mkC 0 0) with (czero : Cx). split; [|intros ->; apply cdiv_zero].
  intros H. destruct (czero_dec w) as [E|E]; [exact E|]. rewrite cdiv_ok in H by exact E. discriminate.
Qed.
Lemma cdiv_undoes (z w : Cx) : w <> mkC 0 0 -> (exists q, cdiv z w = Ret q /\ cmul q w = z) /\ cdiv (cmul z w) w = Ret z.
Proof.
  change (mkC 0 0) with (czero : Cx). intros H. split.
  - exists (Cdivt z w). split; [apply cdiv_ok; exact H|field; exact H].
  - rewrite cdiv_ok by exact H. f_equal. field. exact H.
Qed.
Lemma order_not_antisym : cleb (mkC 1 5) (mkC 1 0) = true /\ cleb (mkC 1 0) (mkC 1 5) = true /\ mkC 1 5 <> mkC 1 0.
Proof.
  unfold cleb. cbn [re leb R_ops]. assert (E : R_leb 1 1 = true) by (unfold R_leb; destruct (Rle_dec 1 1); [reflexivity|lra]).
  split; [exact E|]. split; [exact E|]. intro H. injection H. lra.
Qed.
Lemma cconj_div (z w : Cx) : w <> mkC 0 0 -> exists q, cdiv z w = Ret q /\ cdiv (cconj z) (cconj w) = Ret (cconj q).
Proof.
  change (mkC 0 0) with (czero : Cx). intros H. exists (Cdivt z w). split; [apply cdiv_ok; exact H|].
  rewrite cdiv_ok.
  - f_equal. pose proof (nsq_nz w H) as Hn. destruct z as [a b], w as [c d]. cbn [re im] in Hn. unfold Cdivt, Cinv, cconj. apply cplx_eq; cred; field; try (intro E; apply Hn; lra); repeat split; try (intro E; apply Hn; lra).
  - intro E. apply H. rewrite <- (cconj_involutive R_RingLaws w), E. apply cplx_eq; cbn [re im cconj czero neg zero R_ops]; ring.
Qed.
Lemma cmul_conj_abs (z : Cx) : cmul z (cconj z) = cmul (cabs z) (cabs z).
Proof. rewrite (cmul_conj R_RingLaws), cabs_cmod. pose proof (cmod_sq z) as H. apply cplx_eq; cred; [rewrite H|]; ring. Qed.
Lemma cabs_norm (z w : Cx) :
  0 <= re (cabs z) /\ (re (cabs z) = 0 <-> z = mkC 0 0) /\
  cabs (cmul z w) = cmul (cabs z) (cabs w) /\ re (cabs (cadd z w)) <= re (cabs z) + re (cabs w).
Proof.
  rewrite !cabs_cmod. cbn [re]. split; [apply cmod_pos|]. split; [apply cmod_zero|]. split; [|apply cmod_triangle].
  rewrite cmod_mul. apply cplx_eq; cred; ring.
Qed.
Lemma cmod_gt (z : Cx) : z <> czero -> 0 < cmod z.
Proof. intros H. pose proof (cmod_pos z). destruct (Rle_lt_or_eq_dec _ _ H0) as [E|E]; [exact E|]. symmetry in E. apply cmod_zero in E. contradiction. Qed.
Lemma polar_form (z : Cx) : z <> mkC 0 0 ->
  let r := re (cabs z) in let t := re (carg z) in
  0 < r /\ - PI < t <= PI /\ im (carg z) = 0 /\ z = mkC (r * cos t) (r * sin t).
Proof.
  intros H. cbv zeta. rewrite cabs_cmod. cbn [re im carg tatan2 R_eops]. split; [apply cmod_gt; exact H|]. split; [apply atan2_range|]. split; [reflexivity|]. apply polar. exact H.
Qed.
Lemma polar_unique (r t : R) : 0 < r -> - PI < t <= PI -> let z := mkC (r * cos t) (r * sin t) in cabs z = mkC r 0 /\ carg z = mkC t 0.
Proof.
  intros Hr Ht z.
  assert (E : cexp (mkC (ln r) t) = z) by (unfold cexp, z; cbn [re im texp tcos tsin R_eops mul R_ops]; rewrite exp_ln by exact Hr; reflexivity).
  assert (E2 : cln z = mkC (ln r) t) by (rewrite <- E; apply (proj2 (cln_cexp _)); exact Ht).
  assert (E3 : cmod z = r) by (rewrite <- E, cexp_mod; cbn [re]; apply exp_ln; exact Hr).
  split; [rewrite cabs_cmod, E3; reflexivity|]. rewrite cln_ok in E2. injection E2 as _ E4. unfold carg. cbn [tatan2 R_eops]. f_equal. exact E4.
Qed.
Lemma cexp_facts : (forall z w : Cx, cexp (cadd z w) = cmul (cexp z) (cexp w)) /\ cexp (mkC 0 0) = mkC 1 0 /\
  (forall t : R, cexp (mkC 0 t) = mkC (cos t) (sin t)) /\ (forall t : R, cexp (mkC t 0) = mkC (exp t) 0) /\
  (forall z : Cx, cexp z <> mkC 0 0 /\ cabs (cexp z) = mkC (exp (re z)) 0).
Proof.
  split; [exact cexp_add|]. split; [exact cexp_zero|]. split; [|split; [exact cexp_re|]].
  - intros t. unfold cexp. cbn [re im texp tcos tsin R_eops mul R_ops]. rewrite exp_0. apply cplx_eq; cbn [re im]; ring.
  - intros z. split; [apply cexp_nz|]. rewrite cabs_cmod, cexp_mod. reflexivity.
Qed.
Lemma sin_cos_facts (z : Cx) : exists s c, csin z = Ret s /\ ccos z = Ret c /\
  cadd (cmul s s) (cmul c c) = mkC 1 0 /\ cexp (cmul (mkC 0 1) z) = cadd c (cmul (mkC 0 1) s) /\
  s = mkC (sin (re z) * cosh (im z)) (cos (re z) * sinh (im z)) /\
  c = mkC (cos (re z) * cosh (im z)) (- (sin (re z) * sinh (im z))).
Proof.
  exists (sinf z), (cosf z). split; [apply csin_ok|]. split; [apply ccos_ok|]. split; [apply sin_cos_sq|]. split.
  - change (mkC 0 1) with Ci. change (cexp (cmul Ci z)) with (eip z). unfold sinf, cosf. pose proof C2_nz. unfold C2 in *. pose proof Ci_nz. pose proof (eip_nz z). field. repeat split; assumption || apply one_neq_czero.
  - destruct z as [a b]. split; [apply sinf_ri|apply cosf_ri].
Qed.
Lemma addition_facts (z w : Cx) : exists sz cz sw cw s c,
  csin z = Ret sz /\ ccos z = Ret cz /\ csin w = Ret sw /\ ccos w = Ret cw /\
  csin (cadd z w) = Ret s /\ ccos (cadd z w) = Ret c /\
  s = cadd (cmul sz cw) (cmul cz sw) /\ c = csub (cmul cz cw) (cmul sz sw).
Proof.
  exists (sinf z), (cosf z), (sinf w), (cosf w), (sinf (cadd z w)), (cosf (cadd z w)).
  repeat (split; [first [apply csin_ok|apply ccos_ok|apply sinf_add]|]). apply cosf_add.
Qed.
Lemma sinh_cosh_facts (z : Cx) : exists s c, csinh z = Ret s /\ ccosh z = Ret c /\
  csub (cmul c c) (cmul s s) = mkC 1 0 /\ cexp z = cadd c s /\ cexp (cneg z) = csub c s.
Proof.
  exists (sinhf z), (coshf z). split; [apply csinh_ok|]. split; [apply ccosh_ok|]. split; [apply cosh_sinh_f|].
  unfold sinhf, coshf. set (p := cexp z). set (q := cexp (cneg z)). pose proof C2_nz as H. unfold C2 in *.
  split; field; repeat split; exact H || apply one_neq_czero.
Qed.
Lemma tan_facts (z : Cx) :
  (ctan z = Panic <-> ccos z = Ret (mkC 0 0)) /\ (ctan z = Panic -> im z = 0) /\
  (forall t s c, ctan z = Ret t -> csin z = Ret s -> ccos z = Ret c -> cmul t c = s).
Proof.
  rewrite ccos_ok. split; [|split].
  - rewrite ctan_panics_iff. split; [intros ->; reflexivity|intros H; apply (f_equal (fun o => match o with Ret x => x | Panic => cosf z end)) in H; exact H].
  - rewrite ctan_panics_iff. apply cos_zero_im.
  - intros t s c. unfold ctan. rewrite csin_ok, ccos_ok. cbn [bind]. intros Ht Hs Hc. injection Hs as <-. injection Hc as <-.
    destruct (czero_dec (cosf z)) as [E|E]; [rewrite E, cdiv_zero in Ht; discriminate|]. rewrite cdiv_ok in Ht by exact E. injection Ht as <-. field. exact E.
Qed.
Lemma neg_one_c : (mkC (-1) 0 : Cx) = cneg cone.
Proof. apply cplx_eq; cbn [re im cneg cone neg one zero R_ops]; ring. Qed.
Lemma neg_i_c : (mkC 0 (-1) : Cx) = cneg Ci.
Proof. apply cplx_eq; cbn [re im cneg Ci neg one zero R_ops]; ring. Qed.
Lemma one_sub_sq (z : Cx) : z <> mkC 1 0 -> z <> mkC (-1) 0 -> csub cone (cmul z z) <> czero /\ csub (cmul z z) cone <> czero.
Proof.
  rewrite neg_one_c. change (mkC 1 0) with (cone : Cx). intros H1 H2.
  assert (H : cmul (csub z cone) (csub z (cneg cone)) <> czero) by (intro E; apply cmul_integral in E; destruct E as [E|E]; [exact (csub_nz _ _ H1 E)|exact (csub_nz _ _ H2 E)]).
  split; intro E; apply H; [transitivity (cneg (csub cone (cmul z z)))|transitivity (csub (cmul z z) cone)]; try ring; rewrite E; ring.
Qed.
Lemma sq_add_one (z : Cx) : z <> mkC 0 1 -> z <> mkC 0 (-1) -> cadd (cmul z z) cone <> czero.
Proof.
  rewrite neg_i_c. change (mkC 0 1) with Ci. intros H1 H2 E.
  assert (H : cmul (csub z Ci) (csub z (cneg Ci)) <> czero) by (intro E2; apply cmul_integral in E2; destruct E2 as [E2|E2]; [exact (csub_nz _ _ H1 E2)|exact (csub_nz _ _ H2 E2)]).
  apply H. rewrite <- E. transitivity (csub (cmul z z) (cmul Ci Ci)); [ring|]. rewrite Ci_sq. ring.
Qed.
Lemma arcsin_arccos_facts (z : Cx) : z <> mkC 1 0 -> z <> mkC (-1) 0 -> csin (carcsin z) = Ret z /\ ccos (carccos z) = Ret z.
Proof.
  intros H1 H2. destruct (one_sub_sq z H1 H2) as [H _]. rewrite csin_ok, ccos_ok, (csin_carcsin z H), (ccos_carccos z H). split; reflexivity.
Qed.
Lemma arcsec_arccsc_facts (z : Cx) : z <> mkC 0 0 -> z <> mkC 1 0 -> z <> mkC (-1) 0 ->
  (exists u, carcsec z = Ret u /\ csec u = Ret z) /\ (exists u, carccsc z = Ret u /\ ccsc u = Ret z).
Proof. rewrite neg_one_c. intros H0 H1 H2. split; [apply carcsec_sec|apply carccsc_csc]; assumption. Qed.
Lemma ceq_dec (z w : Cx) : z = w \/ z <> w.
Proof. destruct (ceqb z w) eqn:E; [left; apply ceqb_iff; exact E|right; intro H; apply ceqb_iff in H; congruence]. Qed.
Lemma arctan_facts (z : Cx) :
  (z <> mkC 0 1 -> z <> mkC 0 (-1) -> exists w, carctan z = Ret w /\ ctan w = Ret z) /\
  (carctan z = Panic <-> z = mkC 0 1 \/ z = mkC 0 (-1)).
Proof.
  rewrite neg_i_c. change (mkC 0 1) with Ci. split; [apply ctan_carctan|]. split.
  - intros H. destruct (ceq_dec z Ci) as [E|E]; [left; exact E|]. destruct (ceq_dec z (cneg Ci)) as [E2|E2]; [right; exact E2|].
    destruct (ctan_carctan z E E2) as (w & E3 & _). congruence.
  - intros [->| ->]; apply carctan_panics.
Qed.
Lemma arccot_facts (z : Cx) :
  (z <> mkC 0 0 -> z <> mkC 0 1 -> z <> mkC 0 (-1) -> exists w, carccot z = Ret w /\ ccot w = Ret z) /\
  (carccot z = Panic <-> z = mkC 0 0 \/ z = mkC 0 1 \/ z = mkC 0 (-1)).
Proof.
  rewrite neg_i_c. change (mkC 0 1) with Ci. change (mkC 0 0) with (czero : Cx). split; [apply carccot_cot|]. split.
  - intros H. destruct (ceq_dec z czero) as [E0|E0]; [left; exact E0|]. destruct (ceq_dec z Ci) as [E|E]; [right; left; exact E|]. destruct (ceq_dec z (cneg Ci)) as [E2|E2]; [right; right; exact E2|].
    destruct (carccot_cot z E0 E E2) as (w & E3 & _). congruence.
  - intros [->|[->| ->]]; apply carccot_panics.
Qed.
Lemma arsinh_facts (z : Cx) : z <> mkC 0 1 -> z <> mkC 0 (-1) -> csinh (carsinh z) = Ret z.
Proof. intros H1 H2. rewrite csinh_ok, sinhf_carsinh by (apply sq_add_one; assumption). reflexivity. Qed.
Lemma arcosh_facts (z : Cx) : z <> mkC 1 0 -> z <> mkC (-1) 0 -> ccosh (carcosh z) = Ret z.
Proof. intros H1 H2. rewrite ccosh_ok, coshf_carcosh by (apply one_sub_sq; assumption). reflexivity. Qed.
Lemma artanh_arcoth_facts (z : Cx) : z <> mkC 1 0 -> z <> mkC (-1) 0 ->
  (exists u, cartanh z = Ret u /\ ctanh u = Ret z) /\ (exists u, carcoth z = Ret u /\ ccoth u = Ret z).
Proof. rewrite neg_one_c. intros H1 H2. split; [apply ctanh_cartanh|apply ccoth_carcoth]; assumption. Qed.
Lemma cpow_facts (z : Cx) : z <> mkC 0 0 ->
  (forall w, cpow z w = cexp (cmul w (cln z))) /\
  (forall v w, cpow z (cadd v w) = cmul (cpow z v) (cpow z w)) /\
  cpow z (mkC 0 0) = mkC 1 0 /\ cpow z (mkC 1 0) = z /\ cmul (cpow z (mkC (1 / 2) 0)) (cpow z (mkC (1 / 2) 0)) = z.
Proof.
  intros H. assert (E : forall w, cpow z w = cexp (cmul w (cln z))) by (intros w; apply cpow_ok; exact H).
  split; [exact E|]. split; [|split; [|split]].
  - intros v w. rewrite !E, <- cexp_add. f_equal. ring.
  - rewrite E. transitivity (cexp (czero : Cx)); [f_equal; change (mkC 0 0) with (czero : Cx); ring|apply cexp_zero].
  - rewrite E. transitivity (cexp (cln z)); [f_equal; change (mkC 1 0) with (cone : Cx); ring|apply cexp_cln; exact H].
  - replace (mkC (1 / 2) 0) with Chalf by (unfold Chalf; f_equal; f_equal; ring). apply cpow_half_sq. exact H.
Qed.

Lemma SFmul_nan_l x : SFmul 53 1024 S754_nan x = S754_nan. Proof. reflexivity. Qed.
Lemma SFmul_nan_r x : SFmul 53 1024 x S754_nan = S754_nan. Proof. destruct x; reflexivity. Qed.
Lemma SFadd_nan_l x : SFadd 53 1024 S754_nan x = S754_nan. Proof. reflexivity. Qed.
Lemma cpow_zero_nan (pw : f64 -> f64 -> f64) (E : EOps f64) :
  let half := S754_finite false 4503599627370496 (-53) in
  pw zero half = zero -> tln zero = S754_infinity true -> tcos S754_nan = S754_nan -> tsin S754_nan = S754_nan ->
  @cpow f64 F64_ops (F64_pops pw) E (mkC zero zero) (mkC half zero) = mkC S754_nan S754_nan.
Proof.
  intros half Hp Hl Hc Hs. unfold cpow, cabs, eroot. cbn [re im tpow F64_pops two].
  replace (div one (S754_finite false 4503599627370496 (-51))) with half by (vm_compute; reflexivity).
  replace (add (mul zero zero) (mul zero zero)) with (zero : f64) by (vm_compute; reflexivity).
  rewrite Hp. cbv zeta. change (@tln f64 E (@zero f64 F64_ops) = S754_infinity true) in Hl. rewrite Hl. replace (mul (S754_infinity true) zero) with (S754_nan : f64) by (vm_compute; reflexivity).
  replace (add S754_nan (mul half (re (carg (mkC zero zero))))) with (S754_nan : f64) by reflexivity.
  change (@tcos f64 E S754_nan = S754_nan) in Hc. change (@tsin f64 E S754_nan = S754_nan) in Hs. rewrite Hc, Hs. f_equal; apply SFmul_nan_r.
Qed.
