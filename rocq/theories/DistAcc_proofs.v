(** Accuracy of the distribution functions when the crate's own special functions are plugged in. *)
From Coq Require Import Arith Lia List Bool ZArith Reals Lra Psatz.
From Coquelicot Require Import Coquelicot.
From Verif Require Import Outcome Scalar RealOps Elem_model Int_model Ode_model Special_model Stat_model.
From Verif Require Import Stat_spec Special_spec Gauss_proofs Discrete_proofs OdeOrder_proofs Continuous_proofs Normal_proofs Sample_proofs Special_proofs GammaTerm_proofs GammaFun_proofs StatNew_proofs GammaDist_proofs StatExtra_proofs SpecialNew_proofs.
From Verif Require Import GammaAll_proofs GammaLr_proofs.
Local Open Scope R_scope.

(** ** Normal and log-normal *)
Lemma erf_half_bound e t : Rabs (e - t) <= 5 / 1000000000000 -> Rabs (1 / 2 * (1 + e) - 1 / 2 * (1 + t)) <= 25 / 10000000000000.
Proof. intro H. apply Rabs_le_between in H. apply Rabs_le. lra. Qed.
Lemma impl_erf fuel x e : x_erf (Special := impl_special fuel) x = Ret e -> serf fuel x = Ret (Some e).
Proof.
  cbn [x_erf impl_special]. destruct (serf fuel x) as [[u|]|]; cbn [defuel]; intro E; try discriminate E. apply Ret_inj in E. now subst.
Qed.
Lemma normal_cdf_acc fuel m v x c : 0 < v -> normal_cdf (Sp := impl_special fuel) (mkNormal m v) x = Ret c ->
  Rabs (c - normal_F m v x) <= 25 / 10000000000000 /\
  (sqrt (2 * v) < Rabs (x - m) -> Rabs (c - normal_F m v x) <= 5 / 1000000000000 * Rmin (normal_F m v x) (1 - normal_F m v x) + 2 / 10 ^ 308).
Proof.
  intros Hv. unfold normal_cdf; cbn [no_mean no_var]. lits. rops. intros E.
  destruct (x_erf (Special := impl_special fuel) ((x - m) / sqrt (2 * v))) as [e|] eqn:Ee; [|discriminate E]. cbn [bind] in E. apply Ret_inj in E.
  apply impl_erf in Ee. destruct (serf_accuracy _ _ _ Ee) as [A B].
  assert (SP : 0 < sqrt (2 * v)) by (apply sqrt_lt_R0; lra).
  assert (FE : normal_F m v x = 1 / 2 * (1 + erf_true ((x - m) / sqrt (2 * v)))).
  { unfold normal_F, Phi. pose proof sqrt2_pos. pose proof (sqrt_lt_R0 v Hv). rewrite (sqrt_mult_alt 2 v) by lra.
    replace ((x - m) / (sqrt 2 * sqrt v)) with ((x - m) / sqrt v / sqrt 2) by (field; lra). lra. }
  rewrite FE, <- E. set (t := erf_true ((x - m) / sqrt (2 * v))) in *. split.
  - replace (1 / 2 * (1 + e)) with (1 / 2 * (1 + e)) by ring. apply erf_half_bound. exact A.
  - intro Hx. assert (H1 : 1 < Rabs ((x - m) / sqrt (2 * v))).
    { unfold Rdiv. rewrite Rabs_mult, (Rabs_pos_eq (/ sqrt (2 * v))) by (left; now apply Rinv_0_lt_compat).
      apply Rmult_lt_reg_r with (sqrt (2 * v)); [exact SP|]. rewrite Rmult_assoc, Rinv_l by lra. lra. }
    specialize (B H1). replace (1 / 2 * (1 + e) - 1 / 2 * (1 + t)) with (1 / 2 * (e - t)) by ring. rewrite Rabs_mult, (Rabs_pos_eq (1 / 2)) by lra.
    assert (M : Rmin (1 / 2 * (1 + t)) (1 - 1 / 2 * (1 + t)) = 1 / 2 * (1 - Rabs t)).
    { unfold Rabs. destruct (Rcase_abs t); [rewrite Rmin_left|rewrite Rmin_right]; lra. }
    rewrite M. set (q := 10 ^ 308) in *. clearbody q. unfold Rdiv in *. lra.
Qed.
Lemma normal_F_unique m v F : 0 < v -> is_cdf F -> (forall y, is_derive F y (gauss m v y)) -> forall x, F x = normal_F m v x.
Proof.
  intros Hv (_ & L & _) D x. destruct (normal_F_is_cdf m v Hv) as (_ & L' & _).
  assert (C : forall a b, F a - normal_F m v a = F b - normal_F m v b).
  { intros a b. destruct (MVT_gen (fun t => F t - normal_F m v t) a b (fun _ => 0)) as (c & _ & E).
    - intros t _. replace 0 with (minus (gauss m v t) (gauss m v t)) by (unfold minus, plus, opp; cbn; ring). apply (@is_derive_minus R_AbsRing R_NormedModule F (normal_F m v)); [apply D|now apply normal_F_derive].
    - intros t _. apply continuity_pt_filterlim. apply (ex_derive_continuous (fun t => F t - normal_F m v t) t). exists (minus (gauss m v t) (gauss m v t)). apply (@is_derive_minus R_AbsRing R_NormedModule F (normal_F m v)); [apply D|now apply normal_F_derive].
    - cbv beta in E. lra. }
  assert (Z : is_lim (fun t => F t - normal_F m v t) m_infty 0).
  { replace (Finite 0) with (Finite (0 - 0)) by (f_equal; ring). now apply is_lim_minus'. }
  assert (K : is_lim (fun t => F t - normal_F m v t) m_infty (F x - normal_F m v x)).
  { apply is_lim_ext with (fun _ => F x - normal_F m v x); [intro; apply C|apply is_lim_const]. }
  apply is_lim_unique in Z. apply is_lim_unique in K. rewrite Z in K. injection K. lra.
Qed.
Lemma log_normal_cdf_acc fuel m v x c : 0 < v -> 0 < x -> log_normal_cdf (Sp := impl_special fuel) (mkLogNormal m v) x = Ret c ->
  Rabs (c - normal_F m v (ln x)) <= 25 / 10000000000000.
Proof.
  intros Hv Hx E. refine (proj1 (normal_cdf_acc fuel m v (ln x) c Hv _)). rewrite <- E.
  unfold normal_cdf, log_normal_cdf; cbn [no_mean no_var ln_mu ln_s2]. rb. rops. rcase; [lra|]. lits. rops.
  destruct (x_erf _); [|reflexivity]. cbn [bind]. f_equal. rops. ring.
Qed.

(** ** Gamma distribution *)
Lemma rel_inv g v : 0 < g -> Rabs (v - g) <= 5 / 1000000000000 * Rabs g -> 0 < v /\ Rabs (/ v - / g) <= 6 / 1000000000000 * / g.
Proof.
  intros Hg H. rewrite (Rabs_pos_eq g) in H by lra. apply Rabs_le_between in H.
  assert (V : 0 < v) by nra. split; [exact V|]. replace (/ v - / g) with ((g - v) / v * / g) by (field; lra).
  rewrite Rabs_mult, (Rabs_pos_eq (/ g)) by (left; now apply Rinv_0_lt_compat). apply Rmult_le_compat_r; [left; now apply Rinv_0_lt_compat|].
  apply Rabs_le. split.
  - apply Rmult_le_reg_r with v; [exact V|]. unfold Rdiv. rewrite (Rmult_assoc (g - v)), Rinv_l by lra. lra.
  - apply Rmult_le_reg_r with v; [exact V|]. unfold Rdiv. rewrite (Rmult_assoc (g - v)), Rinv_l by lra. lra.
Qed.
Lemma sgamma_pos_acc z g : 0 < z -> euler_gamma z g -> exists v, sgamma z = Ret v /\ 0 < v /\ Rabs (/ v - / g) <= 6 / 1000000000000 * / g.
Proof.
  intros Hz Hg. pose proof (euler_gamma_pos _ _ Hg) as P. destruct (sgamma_accuracy z g (euler_is_gamma z g Hz Hg)) as (v & E & A).
  exists v. split; [exact E|]. now apply rel_inv.
Qed.
Lemma gpdf_acc a b g v x : 0 < b -> 0 < g -> 0 < x -> Rabs (/ v - / g) <= 6 / 1000000000000 * / g ->
  Rabs (gpdf a b v x - gpdf a b g x) <= 6 / 1000000000000 * gpdf a b g x.
Proof.
  intros Hb Hg Hx H. unfold gpdf. set (r := b * (Rpower (b * x) (a - 1) * exp (- (b * x)))).
  assert (P : 0 < r). { unfold r. apply Rmult_lt_0_compat; [exact Hb|]. apply Rmult_lt_0_compat; [apply exp_pos|apply exp_pos]. }
  replace (b / v * (Rpower (b * x) (a - 1) * exp (- (b * x)))) with (r * / v) by (unfold r, Rdiv; ring).
  replace (b / g * (Rpower (b * x) (a - 1) * exp (- (b * x)))) with (r * / g) by (unfold r, Rdiv; ring).
  rewrite <- Rmult_minus_distr_l, Rabs_mult, (Rabs_pos_eq r) by lra.
  replace (6 / 1000000000000 * (r * / g)) with (r * (6 / 1000000000000 * / g)) by ring. apply Rmult_le_compat_l; lra.
Qed.
Lemma gpdf_textbook a b g x : 0 < b -> 0 < g -> 0 < x -> gpdf a b g x = Rpower b a / g * Rpower x (a - 1) * exp (- (b * x)).
Proof.
  intros Hb Hg Hx. unfold gpdf. rewrite <- Rpower_mult_distr by assumption. rewrite (Rpower_pred b a) by assumption. field. lra.
Qed.
Lemma gammad_pdf_acc fuel a b g x : 0 < a -> 0 < b -> 0 < x -> euler_gamma a g ->
  exists p, gammad_pdf (Sp := impl_special fuel) (mkGammaD a b) x = Ret p /\ Rabs (p - gpdf a b g x) <= 6 / 1000000000000 * gpdf a b g x.
Proof.
  intros Ha Hb Hx Hg. destruct (sgamma_pos_acc a g Ha Hg) as (v & E & V & A). exists (gpdf a b v x).
  split; [apply gammad_pdf_eq; auto|]. apply gpdf_acc; auto. exact (euler_gamma_pos _ _ Hg).
Qed.
Lemma impl_lr fuel a x v : x_gamma_lr (Special := impl_special fuel) a x = Ret v -> sgamma_lr fuel a x = Ret (Some v).
Proof.
  cbn [x_gamma_lr impl_special]. destruct (sgamma_lr fuel a x) as [[u|]|]; cbn [defuel]; intro E; try discriminate E. apply Ret_inj in E. now subst.
Qed.
Lemma gammad_cdf_acc fuel a b F x c : 0 < a -> 0 < b -> 0 < x -> is_gamma_lr a F ->
  gammad_cdf (Sp := impl_special fuel) (mkGammaD a b) x = Ret c ->
  Rabs (c - F (b * x)) <= 13 / 100000000000000 * Rmax 0 (1 - c) + 11 / 10000000000000000 * Rmax 1 (Rmin a (b * x)) * Rmax 0 c + (1 + 3 / Rmax a (b * x)) / 10 ^ 308.
Proof.
  intros Ha Hb Hx HF. unfold gammad_cdf; cbn [gd_a gd_b]. rb. rops. rcase; [lra|]. intro E. apply impl_lr in E.
  apply sgamma_lr_abs with fuel; auto. apply Rmult_lt_0_compat; assumption.
Qed.

(** ** Chi-square *)
Lemma chi_pdf_acc fuel n g x : (1 <= n)%nat -> 0 < x -> euler_gamma (INR n / 2) g ->
  exists p, chi_pdf (Sp := impl_special fuel) (mkChi (INR n)) x = Ret p /\
  Rabs (p - gpdf (INR n / 2) (1 / 2) g x) <= 6 / 1000000000000 * gpdf (INR n / 2) (1 / 2) g x.
Proof.
  intros Hn Hx Hg. assert (0 < INR n) by (apply lt_0_INR; lia). destruct (sgamma_pos_acc (INR n / 2) g ltac:(lra) Hg) as (v & E & V & A).
  exists (gpdf (INR n / 2) (1 / 2) v x). split; [apply chi_pdf_eq; auto|]. apply gpdf_acc; auto; [lra|exact (euler_gamma_pos _ _ Hg)].
Qed.
Lemma loop_sum_close (h h' : nat -> R) d n : (forall i, (i < n)%nat -> Rabs (h' i - h i) <= d * h i) ->
  Rabs (sumn n h' - sumn n h) <= d * sumn n h.
Proof.
  induction n as [|n IH]; intro H; [cbn; rewrite Rminus_diag_eq, Rabs_R0 by reflexivity; lra|].
  cbn [sumn]. replace (sumn n h' + h' n - (sumn n h + h n)) with ((sumn n h' - sumn n h) + (h' n - h n)) by ring.
  eapply Rle_trans; [apply Rabs_triang|]. rewrite Rmult_plus_distr_l. apply Rplus_le_compat; [apply IH; auto|apply H; lia].
Qed.
Definition gval (z : R) : R := match sgamma z with Ret g => g | Panic => 0 end.
Lemma gval_acc z g : 0 < z -> euler_gamma z g -> sgamma z = Ret (gval z) /\ Rabs (/ gval z - / g) <= 6 / 1000000000000 * / g.
Proof. intros Hz Hg. destruct (sgamma_pos_acc z g Hz Hg) as (v & E & V & A). unfold gval. rewrite E. now split. Qed.
Lemma term_close t g v : 0 <= t -> Rabs (/ v - / g) <= 6 / 1000000000000 * / g -> Rabs (t / v - t / g) <= 6 / 1000000000000 * (t / g).
Proof.
  intros Ht H. unfold Rdiv at 1 2. rewrite <- Rmult_minus_distr_l, Rabs_mult, (Rabs_pos_eq t) by lra.
  replace (6 / 1000000000000 * (t / g)) with (t * (6 / 1000000000000 * / g)) by (unfold Rdiv; ring). apply Rmult_le_compat_l; assumption.
Qed.
Lemma chi_cdf_even_acc m x : (Z.of_nat (2 * S m) <= 2 ^ 32 - 1)%Z -> 0 <= x ->
  exists c, (forall fuel, chi_cdf (Sp := impl_special fuel) (mkChi (INR (2 * S m))) x = Ret c) /\
  Rabs (c - chiE m (x / 2)) <= 6 / 1000000000000 * (1 - chiE m (x / 2)).
Proof.
  intros Hm Hx. exists (1 - exp (- x / 2) * sumn (S m) (fun i => (x / 2) ^ i / gval (INR (S i)))). split.
  { intro fuel. unfold chi_cdf; cbn [cs_k]. rewrite !lit_2.
  rewrite (as_u32_trunc (INR (2 * S m)) (2 * S m)) by (assumption || lra).
  replace (div (INR (2 * S m)) 2) with (INR (S m)) by (rewrite mult_INR; cbn; field).
  rewrite (as_u32_trunc (INR (S m)) (S m)) by (lia || lra).
  replace (Z.of_nat (2 * S m) mod 2 =? 0)%Z with true.
  2:{ symmetry. apply Z.eqb_eq. rewrite Nat2Z.inj_mul, Z.mul_comm. apply Z.mod_mul. lia. }
  rewrite Nat2Z.id. rewrite (loop_sum (fun i => (x / 2) ^ i / gval (INR (S i)))).
  2:{ intros i s Hi. rewrite !of_u_R. cbn [x_gamma impl_special].
      rewrite (proj1 (gval_acc (INR (S i)) (INR (fact i)) ltac:(apply lt_0_INR; lia) (glr_gamma _ _ _ (chiE_glr i)))). cbn [bind]. rops. rewrite R_pow_nat. reflexivity. }
  cbn [bind]. reflexivity. }
  unfold chiE. replace (- x / 2) with (- (x / 2)) by lra.
  set (A := sumn (S m) (fun i => (x / 2) ^ i / gval (INR (S i)))). set (B := sumn (S m) (fun i => (x / 2) ^ i / INR (fact i))).
  assert (K : Rabs (A - B) <= 6 / 1000000000000 * B).
  { apply (loop_sum_close (fun i => (x / 2) ^ i / INR (fact i))). intros i _. apply term_close; [apply pow_le; lra|].
    exact (proj2 (gval_acc (INR (S i)) (INR (fact i)) ltac:(apply lt_0_INR; lia) (glr_gamma _ _ _ (chiE_glr i)))). }
  pose proof (exp_pos (- (x / 2))) as EP. set (q := exp (- (x / 2))) in *.
  replace (1 - q * A - (1 - q * B)) with (- (q * (A - B))) by ring. rewrite Rabs_Ropp, Rabs_mult, (Rabs_pos_eq q) by lra.
  replace (6 / 1000000000000 * (1 - (1 - q * B))) with (q * (6 / 1000000000000 * B)) by ring. apply Rmult_le_compat_l; lra.
Qed.
Lemma chi_cdf_odd_acc fuel m x c : (Z.of_nat (2 * m + 1) <= 2 ^ 32 - 1)%Z -> 0 < x ->
  chi_cdf (Sp := impl_special fuel) (mkChi (INR (2 * m + 1))) x = Ret c ->
  Rabs (c - chiO m (x / 2)) <= 11 / 1000000000000 /\
  (2 < x -> Rabs (c - chiO m (x / 2)) <= 6 / 1000000000000 * (1 - chiO m (x / 2)) + 4 / 10 ^ 308).
Proof.
  intros Hm Hx. unfold chi_cdf; cbn [cs_k]. rewrite !lit_2, ?lit_half, ?lit_32.
  rewrite (as_u32_trunc (INR (2 * m + 1)) (2 * m + 1)) by (assumption || lra).
  assert (E : div (INR (2 * m + 1)) 2 = INR m + 1 / 2) by (rewrite plus_INR, mult_INR; cbn; field).
  rewrite E. rewrite (as_u32_trunc (INR m + 1 / 2) m) by (lia || lra).
  assert (OM : (Z.of_nat (2 * m + 1) mod 2 =? 0)%Z = false).
  { apply Z.eqb_neq. replace (Z.of_nat (2 * m + 1)) with (1 + Z.of_nat m * 2)%Z by lia. rewrite Z.mod_add by lia. discriminate. }
  assert (GG : forall i, 0 < INR (S i) + 1 / 2) by (intro i; pose proof (pos_INR (S i)); lra).
  rewrite OM. rewrite Nat2Z.id. rewrite (loop_sum (fun i => Rpower (x / 2) (INR i + 1 / 2) / gval (INR (S i) + 1 / 2))).
  2:{ intros i s Hi. rewrite !of_u_R. rops. replace (INR i + 3 / 2) with (INR (S i) + 1 / 2) by (rewrite S_INR; lra). cbn [x_gamma impl_special].
      rewrite (proj1 (gval_acc _ _ (GG i) (glr_gamma _ _ _ (chiO_glr (S i))))). cbn [bind]. rewrite R_pow_pos by lra. reflexivity. }
  cbn [bind]. rops. intro H. destruct (x_erf (Special := impl_special fuel) (sqrt (x / 2))) as [e|] eqn:Ee; [|discriminate H]. cbn [bind] in H. apply Ret_inj in H.
  apply impl_erf in Ee. destruct (serf_accuracy _ _ _ Ee) as [A1 A2].
  pose proof (chiO_glr m) as CG. assert (C0 : 0 < chiO m (x / 2) <= 1).
  { split; [|apply (glr_le_1 _ _ _ (x / 2) ltac:(lra) CG)]. destruct (glr_scale_lims _ 1 _ _ Rlt_0_1 CG) as [L0 L1].
    pose proof (ghalf_pos m) as GP.
    pose proof (limits_range (fun x => chiO m (1 * x)) (gpdf (INR m + 1 / 2) 1 (ghalf m)) (fun y Hy => gpdf_cdf _ _ _ _ _ Rlt_0_1 CG Hy) (fun y _ => gpdf_pos _ _ _ _ Rlt_0_1 GP) L0 L1 (x / 2) ltac:(lra)) as K. cbv beta in K. rewrite Rmult_1_l in K. lra. }
  assert (T1 : erf_true (sqrt (x / 2)) <= 1) by (apply erf_true_range; apply sqrt_lt_R0; lra).
  assert (T0 : 0 < erf_true (sqrt (x / 2))) by (apply erf_true_range; apply sqrt_lt_R0; lra).
  unfold chiO in *. replace (- x / 2) with (- (x / 2)) in H by lra.
  set (A := sumn m (fun i => Rpower (x / 2) (INR i + 1 / 2) / gval (INR (S i) + 1 / 2))) in *.
  set (B := sumn m (fun i => Rpower (x / 2) (INR i + 1 / 2) / ghalf (S i))) in *.
  assert (K : Rabs (A - B) <= 6 / 1000000000000 * B).
  { apply (loop_sum_close (fun i => Rpower (x / 2) (INR i + 1 / 2) / ghalf (S i))). intros i _. apply term_close; [left; apply exp_pos|].
    exact (proj2 (gval_acc _ _ (GG i) (glr_gamma _ _ _ (chiO_glr (S i))))). }
  pose proof (exp_pos (- (x / 2))) as EP. set (q := exp (- (x / 2))) in *. set (t := erf_true (sqrt (x / 2))) in *.
  assert (K' : Rabs (q * A - q * B) <= 6 / 1000000000000 * (q * B)).
  { rewrite <- Rmult_minus_distr_l, Rabs_mult, (Rabs_pos_eq q) by lra. replace (6 / 1000000000000 * (q * B)) with (q * (6 / 1000000000000 * B)) by ring. apply Rmult_le_compat_l; lra. }
  assert (W : Rabs (c - (t - q * B)) <= Rabs (e - t) + Rabs (q * A - q * B)).
  { rewrite <- H. replace (e - q * A - (t - q * B)) with ((e - t) + - (q * A - q * B)) by ring. eapply Rle_trans; [apply Rabs_triang|]. rewrite Rabs_Ropp. lra. }
  set (qB := q * B) in *. set (qA := q * A) in *. split; [lra|].
  intro H2. assert (S1 : 1 < Rabs (sqrt (x / 2))). { rewrite Rabs_pos_eq by apply sqrt_pos. pose proof (sqrt_lt_1 1 (x / 2) ltac:(lra) ltac:(lra) ltac:(lra)) as Q. rewrite sqrt_1 in Q. exact Q. }
  specialize (A2 S1). fold t in A2. rewrite (Rabs_pos_eq t) in A2 by lra. set (z := 4 / 10 ^ 308) in *. clearbody z. lra.
Qed.
Lemma chi_cdf_total_odd m x : (Z.of_nat (2 * m + 1) <= 2 ^ 32 - 1)%Z -> 0 < x ->
  exists N c, forall fuel, (N <= fuel)%nat -> chi_cdf (Sp := impl_special fuel) (mkChi (INR (2 * m + 1))) x = Ret c.
Proof.
  intros Hm Hx. destruct (serf_limit (sqrt (x / 2))) as (e & N & He). exists N.
  exists (e - exp (- x / 2) * sumn m (fun i => Rpower (x / 2) (INR i + 1 / 2) / gval (INR (S i) + 1 / 2))). intros fuel Hf. specialize (He fuel Hf).
  unfold chi_cdf; cbn [cs_k]. rewrite !lit_2, ?lit_half, ?lit_32.
  rewrite (as_u32_trunc (INR (2 * m + 1)) (2 * m + 1)) by (assumption || lra).
  assert (E : div (INR (2 * m + 1)) 2 = INR m + 1 / 2) by (rewrite plus_INR, mult_INR; cbn; field).
  rewrite E. rewrite (as_u32_trunc (INR m + 1 / 2) m) by (lia || lra).
  assert (OM : (Z.of_nat (2 * m + 1) mod 2 =? 0)%Z = false).
  { apply Z.eqb_neq. replace (Z.of_nat (2 * m + 1)) with (1 + Z.of_nat m * 2)%Z by lia. rewrite Z.mod_add by lia. discriminate. }
  assert (GG : forall i, 0 < INR (S i) + 1 / 2) by (intro i; pose proof (pos_INR (S i)); lra).
  rewrite OM. rewrite Nat2Z.id. rewrite (loop_sum (fun i => Rpower (x / 2) (INR i + 1 / 2) / gval (INR (S i) + 1 / 2))).
  2:{ intros i s Hi. rewrite !of_u_R. rops. replace (INR i + 3 / 2) with (INR (S i) + 1 / 2) by (rewrite S_INR; lra). cbn [x_gamma impl_special].
      rewrite (proj1 (gval_acc _ _ (GG i) (glr_gamma _ _ _ (chiO_glr (S i))))). cbn [bind]. rewrite R_pow_pos by lra. reflexivity. }
  cbn [bind]. rops. cbn [x_erf impl_special]. rewrite He. cbn [defuel bind]. reflexivity.
Qed.
(** For every number of degrees of freedom. *)
Lemma chi_cdf_acc n F x : (1 <= n)%nat -> (Z.of_nat n <= 2 ^ 32 - 1)%Z -> 0 < x -> is_gamma_lr (INR n / 2) F ->
  exists N c, (forall fuel, (N <= fuel)%nat -> chi_cdf (Sp := impl_special fuel) (mkChi (INR n)) x = Ret c) /\
  Rabs (c - F (x / 2)) <= 11 / 1000000000000 /\
  (2 < x -> Rabs (c - F (x / 2)) <= 6 / 1000000000000 * (1 - F (x / 2)) + 4 / 10 ^ 308).
Proof.
  intros Hn Hn2 Hx HF. destruct (Nat.Even_or_Odd n) as [[q ->]|[q ->]].
  - destruct q as [|q]; [lia|]. assert (E : INR (2 * S q) / 2 = INR (S q)) by (rewrite mult_INR; cbn; field). rewrite E in HF.
    rewrite (is_gamma_lr_unique _ F (chiE q) HF (glr_is _ _ _ (chiE_glr q))) by lra.
    destruct (chi_cdf_even_acc q x Hn2 ltac:(lra)) as (c & Ec & A). exists O, c. split; [intros fuel _; apply Ec|].
    assert (0 <= chiE q (x / 2)).
    { pose proof (chiE_glr q) as CG. destruct (glr_scale_lims _ 1 _ _ Rlt_0_1 CG) as [L0 L1]. pose proof (INR_fact_lt_0 q) as GP.
      pose proof (limits_range (fun x => chiE q (1 * x)) (gpdf (INR (S q)) 1 (INR (fact q))) (fun y Hy => gpdf_cdf _ _ _ _ _ Rlt_0_1 CG Hy) (fun y _ => gpdf_pos _ _ _ _ Rlt_0_1 GP) L0 L1 (x / 2) ltac:(lra)) as K. cbv beta in K. rewrite Rmult_1_l in K. lra. }
    split; [lra|]. intros _. assert (0 < 4 / 10 ^ 308) by (apply Rdiv_lt_0_compat; [lra|apply pow_lt; lra]). lra.
  - assert (E : INR (2 * q + 1) / 2 = INR q + 1 / 2) by (rewrite plus_INR, mult_INR; cbn; field). rewrite E in HF.
    rewrite (is_gamma_lr_unique _ F (chiO q) HF (glr_is _ _ _ (chiO_glr q))) by lra.
    destruct (chi_cdf_total_odd q x Hn2 Hx) as (N & c & H). exists N, c. split; [exact H|]. apply (chi_cdf_odd_acc N q x c Hn2 Hx). apply H. lia.
Qed.

(** ** Poisson *)
Lemma impl_ur fuel a x w : x_gamma_ur (Special := impl_special fuel) a x = Ret w -> sgamma_lr fuel a x = Ret (Some (1 - w)).
Proof.
  cbn [x_gamma_ur impl_special]. unfold sgamma_ur. destruct (sgamma_lr fuel a x) as [[u|]|]; cbn [obind olift bind defuel]; intro E; try discriminate E.
  apply Ret_inj in E. subst. rops. do 2 f_equal. ring.
Qed.
Lemma poisson_cdf_acc fuel g n c : 0 < g -> (Z.of_nat n < 2 ^ 32 - 1)%Z ->
  poisson_cdf (Sp := impl_special fuel) (mkPoisson g) n = Ret c ->
  Rabs (c - sum_to n (poisson_law g)) <= 13 / 100000000000000 * Rmax 0 c + 11 / 10000000000000000 * Rmax 1 (Rmin (INR (S n)) g) * Rmax 0 (1 - c) + 4 / 10 ^ 308.
Proof.
  intros Hg Hn E. set (F := chiE n). assert (HF : is_gamma_lr (INR (S n)) F) by exact (glr_is _ _ _ (chiE_glr n)).
  assert (S0 : sum_to n (poisson_law g) = 1 - F g).
  { apply Ret_inj. rewrite <- (@poisson_cdf_ok {| x_gamma := fun _ => Panic; x_digamma := fun _ => Panic; x_gamma_lr := fun _ _ => Panic; x_gamma_ur := fun _ y => Ret (1 - F y); x_gamma_ur_inv := fun _ _ => Panic; x_erf := fun _ => Panic; x_beta := fun _ _ => Panic; x_beta_inc_reg := fun _ _ _ => Panic; x_f21 := fun _ _ _ _ => Panic |} g n F Hg Hn HF eq_refl).
    unfold poisson_cdf. rewrite ichk_u32_small by lia. reflexivity. }
  rewrite S0. unfold poisson_cdf in E; cbn [po_g] in E. rewrite ichk_u32_small in E by lia. cbn [bind] in E. revert E. rops.
  replace (IZR (Z.of_nat n + 1)) with (INR (S n)) by (rewrite INR_IZR_INZ; f_equal; lia). intro E. apply impl_ur in E.
  assert (A0 : 1 <= INR (S n)) by (rewrite S_INR; pose proof (pos_INR n); lra).
  pose proof (sgamma_lr_abs fuel (INR (S n)) g (1 - c) F ltac:(lra) Hg HF E) as B. replace (1 - (1 - c)) with c in B by ring.
  replace (1 - c - F g) with (- (c - (1 - F g))) in B by ring. rewrite Rabs_Ropp in B.
  assert (T : (1 + 3 / Rmax (INR (S n)) g) / 10 ^ 308 <= 4 / 10 ^ 308).
  { unfold Rdiv at 1 3. apply Rmult_le_compat_r; [left; apply Rinv_0_lt_compat, pow_lt; lra|]. pose proof (Rmax_l (INR (S n)) g) as M. set (y := Rmax (INR (S n)) g) in *.
    assert (/ y <= 1). { apply Rmult_le_reg_r with y; [lra|]. rewrite Rinv_l by lra. lra. } unfold Rdiv. lra. }
  set (t := 4 / 10 ^ 308) in *. set (u := (1 + 3 / Rmax (INR (S n)) g) / 10 ^ 308) in *. clearbody t u. lra.
Qed.
