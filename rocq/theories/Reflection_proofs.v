(** Euler's product for the sine and the reflection formula of the gamma function. *)
From Coq Require Import Arith Lia List Bool ZArith Reals Lra Psatz.
From Coquelicot Require Import Coquelicot.
From Verif Require Import Stat_spec Special_spec GammaFun_proofs Stirling_proofs.
Local Open Scope R_scope.

Lemma PI2_pos : 0 < PI / 2. Proof. pose proof PI_RGT_0. lra. Qed.
Lemma cont_ex_RInt (f : R -> R) a b : (forall t, continuous f t) -> ex_RInt f a b.
Proof. intros H. apply (ex_RInt_continuous f). intros t _. apply H. Qed.

(** ** The integrals of cos (2 x t) (cos t)^(2 n) *)
Definition sp_f (x : R) (n : nat) (t : R) : R := cos (2 * x * t) * cos t ^ (2 * n).
Definition sp_J (n : nat) (x : R) : R := RInt (sp_f x n) 0 (PI / 2).
Lemma sp_f_cont x n t : continuous (sp_f x n) t.
Proof. apply (ex_derive_continuous (sp_f x n)). unfold sp_f. auto_derive. exact I. Qed.
Lemma sp_f_ex x n a b : ex_RInt (sp_f x n) a b.
Proof. apply cont_ex_RInt. intros t. apply sp_f_cont. Qed.
Definition sp_W (x : R) (n : nat) (t : R) : R :=
  INR (2 * n + 2) * (cos (2 * x * t) * cos t ^ (2 * n + 1) * sin t) - 2 * x * (sin (2 * x * t) * cos t ^ (2 * n + 2)).
Lemma sp_W_derive x n t : is_derive (sp_W x n) t
  ((INR (2 * n + 2) * INR (2 * n + 2) - 4 * x * x) * sp_f x (S n) t - INR (2 * n + 2) * INR (2 * n + 1) * sp_f x n t).
Proof.
  unfold sp_W, sp_f. replace (2 * S n)%nat with (S (S (2 * n))) by lia. replace (2 * n + 2)%nat with (S (S (2 * n))) by lia. replace (2 * n + 1)%nat with (S (2 * n)) by lia.
  set (k := (2 * n)%nat). 
  assert (PW : forall m, is_derive (fun t => cos t ^ S m) t (INR (S m) * (- sin t * cos t ^ m))).
  { intros m. auto_derive; [exact I|]. change (Init.Nat.pred (S m)) with m.
    change (match m with 0%nat => 1 | S _ => INR m + 1 end) with (INR (S m)). ring. }
  set (a := INR (S (S k))). set (P1 := fun t => cos t ^ S k). set (P2 := fun t => cos t ^ S (S k)).
  assert (D1 : is_derive P1 t (INR (S k) * (- sin t * cos t ^ k))) by exact (PW k).
  change (is_derive (fun t => a * (cos (2 * x * t) * P1 t * sin t) - 2 * x * (sin (2 * x * t) * P2 t)) t
    ((a * a - 4 * x * x) * (cos (2 * x * t) * P2 t) - a * INR (S k) * (cos (2 * x * t) * cos t ^ k))).
  assert (E1 : P1 t = cos t * cos t ^ k) by reflexivity. assert (E2 : P2 t = cos t * (cos t * cos t ^ k)) by reflexivity.
  assert (D2' : is_derive P2 t (a * (- sin t * P1 t))) by exact (PW (S k)). clear PW.
  assert (SC : sin t * sin t = 1 - cos t * cos t) by (pose proof (sin2_cos2 t); unfold Rsqr in *; lra).
  assert (Ea : a = INR (S k) + 1) by (unfold a; apply S_INR).
  clearbody P1 P2 a. auto_derive.
  - split; [exists (INR (S k) * (- sin t * cos t ^ k)); exact D1|]. split; [exists (a * (- sin t * P1 t)); exact D2'|exact I].
  - change (Derive (fun x => P1 x) t) with (Derive P1 t). change (Derive (fun x => P2 x) t) with (Derive P2 t).
    rewrite (is_derive_unique _ _ _ D1), (is_derive_unique _ _ _ D2'), E1, E2, Ea.
    set (s := sin t) in *. set (c := cos t) in *. set (p := c ^ k). set (S2 := sin (2 * x * t)). set (C2 := cos (2 * x * t)). set (b := INR (S k)).
    match goal with |- ?l = ?r => assert (G : l - r = C2 * p * (b + 1) * b * (1 - c * c - s * s)) by ring end.
    replace (1 - c * c - s * s) with 0 in G by lra. rewrite Rmult_0_r in G. lra.
Qed.
Lemma sp_rec x n : (INR (2 * n + 2) * INR (2 * n + 2) - 4 * x * x) * sp_J (S n) x = INR (2 * n + 2) * INR (2 * n + 1) * sp_J n x.
Proof.
  pose proof PI2_pos as P2.
  assert (A : is_RInt (fun t => (INR (2 * n + 2) * INR (2 * n + 2) - 4 * x * x) * sp_f x (S n) t - INR (2 * n + 2) * INR (2 * n + 1) * sp_f x n t)
                0 (PI / 2) (sp_W x n (PI / 2) - sp_W x n 0)).
  { apply (is_RInt_derive (sp_W x n)).
    - intros t _. apply sp_W_derive.
    - intros t _. apply (continuous_minus (fun t => _ * sp_f x (S n) t) (fun t => _ * sp_f x n t)); apply (continuous_scal_r _ (sp_f x _)); apply sp_f_cont. }
  assert (W0 : sp_W x n 0 = 0). { unfold sp_W. rewrite Rmult_0_r, sin_0. ring. }
  assert (W1 : sp_W x n (PI / 2) = 0).
  { unfold sp_W. rewrite cos_PI2. rewrite !pow_ne_zero by lia. ring. }
  rewrite W0, W1 in A. pose proof (is_RInt_unique (V := R_CompleteNormedModule) _ _ _ _ A) as A'. clear A. rename A' into A.
  rewrite (RInt_minus (fun t => _ * sp_f x (S n) t) (fun t => _ * sp_f x n t)) in A
    by (apply (ex_RInt_scal (sp_f x _)); apply sp_f_ex).
  rewrite (RInt_scal (sp_f x (S n))), (RInt_scal (sp_f x n)) in A by apply sp_f_ex.
  change (RInt (sp_f x (S n)) 0 (PI / 2)) with (sp_J (S n) x) in A. change (RInt (sp_f x n) 0 (PI / 2)) with (sp_J n x) in A.
  match type of A with ?l = _ => change l with ((INR (2 * n + 2) * INR (2 * n + 2) - 4 * x * x) * sp_J (S n) x + - (INR (2 * n + 2) * INR (2 * n + 1) * sp_J n x)) in A end. lra.
Qed.
Lemma sp_J_pos n : 0 < sp_J n 0.
Proof.
  induction n as [|n IH].
  - unfold sp_J, sp_f. rewrite (RInt_ext _ (fun _ => 1)) by (intros; cbn; rewrite Rmult_0_r, Rmult_0_l, cos_0; ring).
    rewrite RInt_const. unfold scal. cbn. unfold mult. cbn. pose proof PI2_pos. lra.
  - pose proof (sp_rec 0 n) as E. rewrite !Rmult_0_r, Rminus_0_r in E.
    assert (0 < INR (2 * n + 2)) by (apply lt_0_INR; lia). assert (0 < INR (2 * n + 1)) by (apply lt_0_INR; lia).
    destruct (Rlt_dec 0 (sp_J (S n) 0)); [assumption|]. exfalso.
    assert (0 < INR (2 * n + 2) * INR (2 * n + 1) * sp_J n 0) by (repeat apply Rmult_lt_0_compat; assumption).
    assert (0 < INR (2 * n + 2) * INR (2 * n + 2)) by (apply Rmult_lt_0_compat; assumption). nra.
Qed.
Lemma sp_J_0 x : x <> 0 -> sp_J 0 x = sin (PI * x) / (2 * x).
Proof.
  intros Hx. unfold sp_J. apply is_RInt_unique.
  replace (sin (PI * x) / (2 * x)) with (sin (2 * x * (PI / 2)) / (2 * x) - sin (2 * x * 0) / (2 * x)).
  - apply (is_RInt_derive (fun t => sin (2 * x * t) / (2 * x))).
    + intros t _. unfold sp_f. auto_derive; [exact I|]. match goal with |- ?a = ?b => change (@eq R a b) end. change (2 * 0)%nat with 0%nat. cbn [pow]. field. assumption.
    + intros t _. apply sp_f_cont.
  - rewrite Rmult_0_r, sin_0. replace (2 * x * (PI / 2)) with (PI * x) by field. field. assumption.
Qed.
(** ** The quotient tends to 1 *)
Lemma tcos_le_sin t : 0 <= t <= PI / 2 -> t * cos t <= sin t.
Proof.
  intros Ht. destruct (Req_dec t 0) as [->|N]; [rewrite sin_0; lra|].
  assert (D : forall u, is_derive (fun u => sin u - u * cos u) u (u * sin u)) by (intros u; auto_derive; [exact I|ring]).
  destruct (MVT_gen (fun u => sin u - u * cos u) 0 t (fun u => u * sin u)) as [c [Hc E]].
  - intros u _. apply D.
  - intros u _. apply continuity_pt_filterlim. apply (ex_derive_continuous (fun u => sin u - u * cos u)). eexists. apply D.
  - rewrite Rmin_left, Rmax_right in Hc by lra. rewrite sin_0 in E. pose proof PI_RGT_0.
    assert (0 <= sin c) by (apply sin_ge_0; lra). assert (0 <= c * sin c * (t - 0)) by (apply Rmult_le_pos; [apply Rmult_le_pos|]; lra). lra.
Qed.
Lemma one_minus_cos u : 0 <= 1 - cos u <= u * u / 2.
Proof.
  pose proof (COS_bound u). split; [lra|].
  assert (E : 1 - cos u = 2 * (sin (u / 2) * sin (u / 2))).
  { replace u with (2 * (u / 2)) at 1 by field. rewrite cos_2a_sin. ring. }
  assert (B : Rabs (sin (u / 2)) <= Rabs (u / 2)).
  { assert (S : forall y, 0 <= y -> Rabs (sin y) <= y).
    { intros y Hy. destruct (Req_dec y 0) as [->|N]; [rewrite sin_0, Rabs_R0; lra|].
      destruct (MVT_gen sin 0 y cos) as [c [Hc E1]].
      - intros t _. apply is_derive_sin.
      - intros t _. apply continuity_sin.
      - rewrite sin_0 in E1. replace (sin y) with (cos c * y) by lra. rewrite Rabs_mult, (Rabs_pos_eq y) by lra.
        assert (Rabs (cos c) <= 1) by (pose proof (COS_bound c); apply Rabs_le; lra). nra. }
    destruct (Rle_dec 0 (u / 2)) as [P|P].
    - rewrite (Rabs_pos_eq (u / 2)) by assumption. now apply S.
    - pose proof (S (- (u / 2)) ltac:(lra)) as Q. rewrite sin_neg, Rabs_Ropp in Q. rewrite (Rabs_left (u / 2)) by lra. assumption. }
  rewrite E. assert (Q : Rabs (sin (u / 2)) * Rabs (sin (u / 2)) <= Rabs (u / 2) * Rabs (u / 2)) by (apply Rmult_le_compat; try apply Rabs_pos; assumption).
  rewrite <- !Rabs_mult in Q. rewrite !Rabs_pos_eq in Q by (apply Rle_0_sqr). lra.
Qed.
Lemma sp_J_close x n : 0 <= sp_J (S n) 0 - sp_J (S n) x <= 2 * (x * x) / INR (2 * n + 1) * sp_J (S n) 0.
Proof.
  pose proof PI2_pos as P2. assert (K1 : 0 < INR (2 * n + 1)) by (apply lt_0_INR; lia). assert (K2 : INR (2 * n + 2) = INR (2 * n + 1) + 1) by (rewrite !plus_INR; cbn [INR]; ring).
  assert (E : sp_J (S n) 0 - sp_J (S n) x = RInt (fun t => sp_f 0 (S n) t - sp_f x (S n) t) 0 (PI / 2)).
  { unfold sp_J. rewrite (RInt_minus (sp_f 0 (S n)) (sp_f x (S n))) by apply sp_f_ex. reflexivity. }
  assert (F : sp_J n 0 - sp_J (S n) 0 = / INR (2 * n + 1) * sp_J (S n) 0).
  { pose proof (sp_rec 0 n) as Q. rewrite !Rmult_0_r, Rminus_0_r in Q.
    assert (Q' : INR (2 * n + 2) * sp_J (S n) 0 = INR (2 * n + 1) * sp_J n 0) by (apply Rmult_eq_reg_l with (INR (2 * n + 2)); lra).
    rewrite K2 in Q'. apply Rmult_eq_reg_l with (INR (2 * n + 1)); [|lra]. rewrite <- Rmult_assoc, Rinv_r by lra. lra. }
  assert (G : sp_J n 0 - sp_J (S n) 0 = RInt (fun t => sp_f 0 n t - sp_f 0 (S n) t) 0 (PI / 2)).
  { unfold sp_J. rewrite (RInt_minus (sp_f 0 n) (sp_f 0 (S n))) by apply sp_f_ex. reflexivity. }
  assert (X1 : ex_RInt (fun t => sp_f 0 (S n) t - sp_f x (S n) t) 0 (PI / 2)) by (apply (ex_RInt_minus (sp_f 0 (S n)) (sp_f x (S n))); apply sp_f_ex).
  assert (X2 : ex_RInt (fun t => sp_f 0 n t - sp_f 0 (S n) t) 0 (PI / 2)) by (apply (ex_RInt_minus (sp_f 0 n) (sp_f 0 (S n))); apply sp_f_ex).
  assert (Form : forall t, sp_f 0 (S n) t - sp_f x (S n) t = (1 - cos (2 * x * t)) * (cos t ^ (2 * n) * (cos t * cos t))).
  { intros t. unfold sp_f. rewrite Rmult_0_r, Rmult_0_l, cos_0. replace (2 * S n)%nat with (S (S (2 * n))) by lia. cbn [pow]. ring. }
  assert (Form2 : forall t, sp_f 0 n t - sp_f 0 (S n) t = cos t ^ (2 * n) * (sin t * sin t)).
  { intros t. unfold sp_f. rewrite Rmult_0_r, Rmult_0_l, cos_0. replace (2 * S n)%nat with (S (S (2 * n))) by lia. cbn [pow].
    assert (SC : sin t * sin t = 1 - cos t * cos t) by (pose proof (sin2_cos2 t); unfold Rsqr in *; lra). rewrite SC. ring. }
  assert (CP : forall t, 0 <= cos t ^ (2 * n)) by (intros t; rewrite pow_mult; apply pow_le; apply pow2_ge_0).
  split.
  - rewrite E. apply RInt_ge_0; [lra|exact X1|]. intros t Ht. rewrite Form.
    pose proof (one_minus_cos (2 * x * t)). apply Rmult_le_pos; [lra|]. apply Rmult_le_pos; [apply CP|apply Rle_0_sqr].
  - replace (2 * (x * x) / INR (2 * n + 1) * sp_J (S n) 0) with (2 * (x * x) * (sp_J n 0 - sp_J (S n) 0)) by (rewrite F; field; lra).
    rewrite E, G.
    replace (2 * (x * x) * RInt (fun t => sp_f 0 n t - sp_f 0 (S n) t) 0 (PI / 2)) with (RInt (fun t => 2 * (x * x) * (sp_f 0 n t - sp_f 0 (S n) t)) 0 (PI / 2))
      by (rewrite (RInt_scal (fun t => sp_f 0 n t - sp_f 0 (S n) t)) by exact X2; reflexivity).
    apply RInt_le; [lra|exact X1|apply (ex_RInt_scal (fun t => sp_f 0 n t - sp_f 0 (S n) t)); exact X2|].
    intros t Ht. rewrite Form, Form2. pose proof (one_minus_cos (2 * x * t)) as [_ U]. pose proof (tcos_le_sin t ltac:(lra)) as TS.
    assert (C0 : 0 <= cos t) by (apply cos_ge_0; lra).
    replace (2 * (x * x) * (cos t ^ (2 * n) * (sin t * sin t))) with (cos t ^ (2 * n) * (2 * (x * x) * (sin t * sin t))) by ring.
    replace ((1 - cos (2 * x * t)) * (cos t ^ (2 * n) * (cos t * cos t))) with (cos t ^ (2 * n) * ((1 - cos (2 * x * t)) * (cos t * cos t))) by ring.
    apply Rmult_le_compat_l; [apply CP|].
    apply Rle_trans with (2 * x * t * (2 * x * t) / 2 * (cos t * cos t)); [apply Rmult_le_compat_r; [apply Rle_0_sqr|lra]|].
    replace (2 * x * t * (2 * x * t) / 2 * (cos t * cos t)) with (2 * (x * x) * ((t * cos t) * (t * cos t))) by field.
    apply Rmult_le_compat_l; [pose proof (Rle_0_sqr x); unfold Rsqr in *; lra|].
    apply Rmult_le_compat; try assumption; apply Rmult_le_pos; lra.
Qed.
Definition sp_r (x : R) (n : nat) : R := sp_J n x / sp_J n 0.
Lemma sp_r_lim x : is_lim_seq (sp_r x) 1.
Proof.
  apply is_lim_seq_incr_1.
  apply (is_lim_seq_le_le (fun n => 1 - 2 * (x * x) * / (1 + INR n)) _ (fun _ => 1)); [| |apply is_lim_seq_const].
  - intros n. unfold sp_r. pose proof (sp_J_pos (S n)) as P. destruct (sp_J_close x n) as [A B].
    assert (K1 : 0 < INR (2 * n + 1)) by (apply lt_0_INR; lia). pose proof (pos_INR n).
    assert (K : / INR (2 * n + 1) <= / (1 + INR n)) by (apply Rinv_le_contravar; [lra|]; rewrite plus_INR, mult_INR; cbn [INR]; lra).
    split.
    + apply Rmult_le_reg_r with (sp_J (S n) 0); [assumption|]. replace (sp_J (S n) x / sp_J (S n) 0 * sp_J (S n) 0) with (sp_J (S n) x) by (field; lra).
      assert (2 * (x * x) / INR (2 * n + 1) * sp_J (S n) 0 <= 2 * (x * x) * / (1 + INR n) * sp_J (S n) 0).
      { apply Rmult_le_compat_r; [lra|]. apply Rmult_le_compat_l; [pose proof (Rle_0_sqr x); unfold Rsqr in *; lra|assumption]. }
      lra.
    + apply Rmult_le_reg_r with (sp_J (S n) 0); [assumption|]. replace (sp_J (S n) x / sp_J (S n) 0 * sp_J (S n) 0) with (sp_J (S n) x) by (field; lra). lra.
  - replace (Finite 1) with (Finite (1 - 2 * (x * x) * 0)) by (f_equal; ring).
    apply is_lim_seq_minus'; [apply is_lim_seq_const|]. apply (is_lim_seq_scal_l (fun n => / (1 + INR n)) (2 * (x * x)) 0).
    apply (seq_of_lim (fun w => / w) 0 1). apply (is_lim_inv (fun x => x) p_infty p_infty (is_lim_id p_infty)). discriminate.
Qed.
(** ** Euler's product *)
Fixpoint sp_p (x : R) (n : nat) : R := match n with O => 1 | S k => sp_p x k * (1 - x * x / (INR (S k) * INR (S k))) end.
Lemma sp_r_step x n : sp_r x n = (1 - x * x / (INR (S n) * INR (S n))) * sp_r x (S n).
Proof.
  unfold sp_r. pose proof (sp_J_pos n) as P. pose proof (sp_J_pos (S n)) as P'. pose proof (sp_rec x n) as A. pose proof (sp_rec 0 n) as B.
  rewrite !Rmult_0_r, Rminus_0_r in B.
  assert (K1 : 0 < INR (2 * n + 1)) by (apply lt_0_INR; lia). assert (K2 : INR (2 * n + 2) = 2 * INR (S n)) by (rewrite S_INR, plus_INR, mult_INR; cbn [INR]; ring).
  assert (K3 : 0 < INR (S n)) by (apply lt_0_INR; lia). rewrite K2 in A, B.
  assert (B' : sp_J n 0 = 2 * INR (S n) / INR (2 * n + 1) * sp_J (S n) 0).
  { apply Rmult_eq_reg_l with (2 * INR (S n) * INR (2 * n + 1)); [|apply Rgt_not_eq; apply Rmult_lt_0_compat; lra]. rewrite <- B. field. lra. }
  assert (A' : sp_J n x = (2 * INR (S n) * (2 * INR (S n)) - 4 * x * x) / (2 * INR (S n) * INR (2 * n + 1)) * sp_J (S n) x).
  { apply Rmult_eq_reg_l with (2 * INR (S n) * INR (2 * n + 1)); [|apply Rgt_not_eq; apply Rmult_lt_0_compat; lra]. rewrite <- A. field. lra. }
  rewrite A', B'. field. repeat split; lra.
Qed.
Lemma sine_product x n : x <> 0 -> sin (PI * x) = PI * x * sp_p x n * sp_r x n.
Proof.
  intros Hx. pose proof PI_RGT_0 as PP. induction n as [|n IH].
  - cbn [sp_p]. unfold sp_r. rewrite (sp_J_0 x Hx).
    assert (J : sp_J 0 0 = PI / 2).
    { unfold sp_J, sp_f. rewrite (RInt_ext _ (fun _ => 1)) by (intros; cbn; rewrite Rmult_0_r, Rmult_0_l, cos_0; ring).
      rewrite RInt_const. unfold scal. cbn. unfold mult. cbn. lra. }
    rewrite J. field. lra.
  - rewrite IH. cbn [sp_p]. rewrite (sp_r_step x n). ring.
Qed.
Lemma rising_pair x n : rising x (S n) * rising (1 - x) n = x * (rising 1 n * rising 1 n) * sp_p x n.
Proof.
  induction n as [|n IH]; [cbn; ring|].
  change (rising x (S (S n))) with (rising x (S n) * (x + INR (S n))). change (rising (1 - x) (S n)) with (rising (1 - x) n * (1 - x + INR n)).
  replace (rising x (S n) * (x + INR (S n)) * (rising (1 - x) n * (1 - x + INR n))) with (rising x (S n) * rising (1 - x) n * ((x + INR (S n)) * (1 - x + INR n))) by ring.
  rewrite IH. cbn [rising sp_p]. rewrite S_INR. pose proof (pos_INR n). field. lra.
Qed.
Lemma sp_p_pos x n : 0 < x < 1 -> 0 < sp_p x n.
Proof.
  intros Hx. induction n as [|n IH]; cbn [sp_p]; [lra|]. apply Rmult_lt_0_compat; [assumption|].
  assert (1 <= INR (S n)) by (rewrite S_INR; pose proof (pos_INR n); lra).
  assert (x * x < INR (S n) * INR (S n)) by nra.
  assert (x * x / (INR (S n) * INR (S n)) < 1); [|lra].
  apply Rmult_lt_reg_r with (INR (S n) * INR (S n)); [nra|]. unfold Rdiv. rewrite Rmult_assoc, Rinv_l by nra. lra.
Qed.
Theorem gamma_reflection x g h : 0 < x < 1 -> euler_gamma x g -> euler_gamma (1 - x) h -> g * h * sin (PI * x) = PI.
Proof.
  intros Hx Hg Hh. pose proof PI_RGT_0 as PP. pose proof (euler_gamma_pos _ _ Hg) as Pg. pose proof (euler_gamma_pos _ _ Hh) as Ph.
  assert (Sp : 0 < sin (PI * x)). { apply sin_gt_0; [apply Rmult_lt_0_compat; lra|]. rewrite <- (Rmult_1_r PI) at 2. apply Rmult_lt_compat_l; lra. }
  assert (Rp : forall n, 0 < sp_r x n).
  { intros n. pose proof (sine_product x n ltac:(lra)) as E. pose proof (sp_p_pos x n Hx).
    assert (0 < PI * x * sp_p x n) by (apply Rmult_lt_0_compat; [apply Rmult_lt_0_compat; lra|assumption]).
    destruct (Rlt_dec 0 (sp_r x n)); [assumption|]. exfalso. nra. }
  pose proof (stirling x g ltac:(lra) Hg) as A. apply is_lim_seq_incr_1 in A.
  pose proof (stirling (1 - x) h ltac:(lra) Hh) as B. pose proof st_const as C.
  assert (S2 : is_lim_seq (fun n => stir (1 - x + INR n + 2 * x) - stir (1 - x + INR n) - 2 * x * ln (1 - x + INR n)) 0)
    by (apply (seq_of_lim (fun w => stir (w + 2 * x) - stir w - 2 * x * ln w) 0 (1 - x)); apply stir_shift_lim; lra).
  assert (S1 : is_lim_seq (fun n => stir (1 - x + INR n + x) - stir (1 - x + INR n) - x * ln (1 - x + INR n)) 0)
    by (apply (seq_of_lim (fun w => stir (w + x) - stir w - x * ln w) 0 (1 - x)); apply stir_shift_lim; lra).
  assert (LR : is_lim_seq (fun n => ln (sp_r x n)) 0).
  { rewrite <- ln_1. apply (is_lim_seq_continuous ln (sp_r x) 1); [|apply sp_r_lim]. apply continuity_pt_filterlim. apply (ex_derive_continuous ln). auto_derive. lra. }
  set (c := 1 / 2 * ln (2 * PI)) in *.
  assert (T : is_lim_seq (fun _ : nat => ln (g * h * sin (PI * x)) - ln PI) (c + c - (c + c) + (0 - (0 + 0)) + 0)).
  { apply (is_lim_seq_ext (fun n => st_u x g (S n) + st_u (1 - x) h n - (st_u 1 1 n + st_u 1 1 n)
      + ((stir (1 - x + INR n + 2 * x) - stir (1 - x + INR n) - 2 * x * ln (1 - x + INR n))
         - ((stir (1 - x + INR n + x) - stir (1 - x + INR n) - x * ln (1 - x + INR n)) + (stir (1 - x + INR n + x) - stir (1 - x + INR n) - x * ln (1 - x + INR n))))
      + ln (sp_r x n))).
    - intros n. unfold st_u. rewrite S_INR.
      replace (1 - x + INR n + 2 * x) with (x + (INR n + 1)) by ring. replace (1 - x + INR n + x) with (1 + INR n) by ring.
      pose proof (rising_pos x (S n) ltac:(lra)) as R1. pose proof (rising_pos (1 - x) n ltac:(lra)) as R2. pose proof (rising_pos 1 n ltac:(lra)) as R3. pose proof (Rp n) as R4. pose proof (sp_p_pos x n Hx) as R5.
      assert (L : ln (rising x (S n)) + ln (rising (1 - x) n) = ln x + (ln (rising 1 n) + ln (rising 1 n)) + ln (sp_p x n)).
      { rewrite <- ln_mult by assumption. rewrite rising_pair. rewrite (ln_mult (x * (rising 1 n * rising 1 n))) by (try assumption; repeat (apply Rmult_lt_0_compat; try lra)).
        rewrite ln_mult by (try lra; apply Rmult_lt_0_compat; lra). rewrite ln_mult by assumption. reflexivity. }
      assert (M : ln (sin (PI * x)) = ln PI + ln x + ln (sp_p x n) + ln (sp_r x n)).
      { rewrite (sine_product x n) by lra. assert (0 < PI * x) by (apply Rmult_lt_0_compat; lra).
        rewrite (ln_mult (PI * x * sp_p x n)) by (try assumption; apply Rmult_lt_0_compat; assumption).
        rewrite (ln_mult (PI * x)) by assumption. rewrite (ln_mult PI x) by lra. reflexivity. }
      rewrite !Rmult_1_r. rewrite (ln_mult (rising x (S n)) g), (ln_mult (rising (1 - x) n) h) by assumption.
      rewrite (ln_mult (g * h)) by (try assumption; now apply Rmult_lt_0_compat). rewrite (ln_mult g h) by assumption. rewrite M. lra.
    - apply is_lim_seq_plus'; [|exact LR]. apply is_lim_seq_plus'.
      + apply is_lim_seq_minus'; [now apply is_lim_seq_plus'|]. now apply is_lim_seq_plus'.
      + apply is_lim_seq_minus'; [exact S2|]. now apply is_lim_seq_plus'. }
  apply is_lim_seq_unique in T. rewrite Lim_seq_const in T. apply (f_equal real) in T. cbn in T.
  assert (E : ln (g * h * sin (PI * x)) = ln PI) by lra. apply ln_inv in E; [assumption| |assumption]. repeat apply Rmult_lt_0_compat; assumption.
Qed.
