(** The digamma function in binary64. *)
From Coq Require Import Arith Lia List Bool ZArith Reals Lra Psatz SpecFloat.
From Coquelicot Require Import Coquelicot.
From Flocq Require Import Core IEEE754.BinarySingleNaN.
From Verif Require Import Outcome Scalar RealOps Elem_model Int_model Ode_model Special_model Special_spec F64_spec F64Cplx_spec
  Digamma_proofs F64Flocq F64Err_proofs F64Grid_proofs F64Euler_proofs F64QR_proofs F64QREx_proofs F64Term_proofs.
Local Open Scope R_scope.

(** ** The digamma function is Lipschitz *)
Lemma digamma_lip m a b p q : 1 < m -> m <= a -> m <= b -> is_digamma a p -> is_digamma b q -> Rabs (p - q) <= Rabs (a - b) / (m - 1).
Proof.
  intros Hm Ha Hb [_ A] [_ B].
  set (D := fun n => (ln (INR n) - sum_f_R0 (fun k => / (a + INR k)) n) - (ln (INR n) - sum_f_R0 (fun k => / (b + INR k)) n)).
  assert (LD : is_lim_seq D (p - q)) by (apply is_lim_seq_minus'; assumption).
  assert (BD : forall n, Rabs (D n) <= Rabs (a - b) * (/ (m - 1) - / (m + INR n))).
  { induction n as [|n IH].
    - unfold D. cbn [sum_f_R0 INR]. rewrite !Rplus_0_r. replace (ln 0 - / a - (ln 0 - / b)) with ((a - b) * (/ a * / b)) by (field; lra).
      rewrite Rabs_mult. apply Rmult_le_compat_l; [apply Rabs_pos|]. rewrite Rabs_pos_eq by (left; apply Rmult_lt_0_compat; apply Rinv_0_lt_compat; lra).
      replace (/ (m - 1) - / m) with (/ (m - 1) * / m) by (field; lra).
      apply Rmult_le_compat; try (left; apply Rinv_0_lt_compat; lra); apply Rinv_le_contravar; lra.
    - pose proof (pos_INR n) as N. unfold D in *. rewrite !tech5. rewrite S_INR.
      replace (ln (INR n + 1) - (sum_f_R0 (fun k : nat => / (a + INR k)) n + / (a + (INR n + 1))) - (ln (INR n + 1) - (sum_f_R0 (fun k : nat => / (b + INR k)) n + / (b + (INR n + 1)))))
        with ((ln (INR n) - sum_f_R0 (fun k => / (a + INR k)) n - (ln (INR n) - sum_f_R0 (fun k => / (b + INR k)) n)) + (a - b) * (/ (a + (INR n + 1)) * / (b + (INR n + 1)))) by (field; lra).
      eapply Rle_trans; [apply Rabs_triang|].
      replace (Rabs (a - b) * (/ (m - 1) - / (m + (INR n + 1)))) with (Rabs (a - b) * (/ (m - 1) - / (m + INR n)) + Rabs (a - b) * (/ (m + INR n) * / (m + (INR n + 1)))) by (field; lra).
      apply Rplus_le_compat; [exact IH|]. rewrite Rabs_mult. apply Rmult_le_compat_l; [apply Rabs_pos|].
      rewrite Rabs_pos_eq by (left; apply Rmult_lt_0_compat; apply Rinv_0_lt_compat; lra).
      apply Rmult_le_compat; try (left; apply Rinv_0_lt_compat; lra); apply Rinv_le_contravar; lra. }
  assert (BD' : forall n, Rabs (D n) <= Rabs (a - b) / (m - 1)).
  { intro n. eapply Rle_trans; [apply BD|]. unfold Rdiv. apply Rmult_le_compat_l; [apply Rabs_pos|]. pose proof (pos_INR n) as N. assert (0 < / (m + INR n)) by (apply Rinv_0_lt_compat; lra). lra. }
  apply (is_lim_seq_abs _ _) in LD. apply (is_lim_seq_le (fun n => Rabs (D n)) (fun _ => Rabs (a - b) / (m - 1)) (Rabs (p - q)) (Rabs (a - b) / (m - 1)) BD' LD (is_lim_seq_const _)).
Qed.
Lemma digamma_iter n : forall x p, is_digamma x p -> is_digamma (x + INR n) (p + rsum n (fun k => / (x + INR k))).
Proof.
  induction n as [|n IH]; intros x p H.
  - change (rsum 0 (fun k => / (x + INR k))) with 0. cbn [INR]. rewrite !Rplus_0_r. exact H.
  - rewrite rsum_S, S_INR, <- !Rplus_assoc. apply is_digamma_up. now apply IH.
Qed.

(** ** The loop *)
Lemma gam_9 k : (k <= 9)%nat -> gam k <= 1001 / 1000 * INR k * uro.
Proof.
  intro H. pose proof uro_pos as U. pose proof uro_tiny as U1. pose proof (pos_INR k) as K. apply le_INR in H. replace (INR 9) with 9 in H by (simpl; ring).
  assert (KU : INR k * uro <= 9 * / 1000000000000000) by (apply Rmult_le_compat; lra).
  eapply Rle_trans; [apply gam_le; lra|]. assert (K0 : 0 <= INR k * uro) by (apply Rmult_le_pos; lra).
  unfold Rdiv. apply Rle_trans with (INR k * uro * (1001 / 1000)); [|lra]. apply Rmult_le_compat_l; [exact K0|].
  replace (1001 / 1000) with (/ (1000 / 1001)) by field. apply Rinv_le_contravar; lra.
Qed.
Section Digam.
Context {E : EOps f64}.
Variable x : f64.
Hypotheses (Gx : fgood x) (X0 : bpow radix2 (-1000) <= fval x).
Notation X := (fval x).
Notation S' k := (rsum k (fun j => / (X + INR j))).
Notation B := (/ X + 3).
Lemma X_pos : 0 < X. Proof. pose proof (bpow_gt_0 radix2 (-1000)). lra. Qed.
Lemma invX : 0 < / X <= bpow radix2 1000.
Proof.
  pose proof X_pos. split; [now apply Rinv_0_lt_compat|]. change 1000%Z with (- (-1000))%Z. rewrite bpow_opp. apply Rinv_le_contravar; [apply bpow_gt_0|exact X0].
Qed.
Lemma S_bound k : (k <= 9)%nat -> 0 <= S' k <= B - / 4.
Proof.
  intro H. pose proof X_pos as XP. pose proof invX as IX. split.
  - apply rsum_pos. intros l _. left. apply Rinv_0_lt_compat. pose proof (pos_INR l). lra.
  - assert (T : forall j, 0 < INR j -> 0 < / (X + INR j) <= / INR j) by (intros j Hj; split; [apply Rinv_0_lt_compat; lra|apply Rinv_le_contravar; lra]).
    assert (M : S' k <= S' 9).
    { clear - H XP. induction H as [|m H IH]; [lra|]. rewrite rsum_S. assert (0 < / (X + INR m)) by (apply Rinv_0_lt_compat; pose proof (pos_INR m); lra). lra. }
    eapply Rle_trans; [exact M|]. rewrite !rsum_S. change (rsum 0 (fun j => / (X + INR j))) with 0. replace (X + INR 0) with X by (simpl; ring).
    pose proof (T 1%nat ltac:(simpl; lra)) as T1. pose proof (T 2%nat ltac:(simpl; lra)) as T2. pose proof (T 3%nat ltac:(simpl; lra)) as T3. pose proof (T 4%nat ltac:(simpl; lra)) as T4.
    pose proof (T 5%nat ltac:(simpl; lra)) as T5. pose proof (T 6%nat ltac:(simpl; lra)) as T6. pose proof (T 7%nat ltac:(simpl; lra)) as T7. pose proof (T 8%nat ltac:(simpl; lra)) as T8.
    replace (/ INR 1) with 1 in T1 by (simpl; field). replace (/ INR 2) with (/ 2) in T2 by (simpl; field). replace (/ INR 3) with (/ 3) in T3 by (simpl; field). replace (/ INR 4) with (/ 4) in T4 by (simpl; field).
    replace (/ INR 5) with (/ 5) in T5 by (simpl; field). replace (/ INR 6) with (/ 6) in T6 by (simpl; field). replace (/ INR 7) with (/ 7) in T7 by (simpl; field). replace (/ INR 8) with (/ 8) in T8 by (simpl; field).
    lra.
Qed.
Definition LI (k : nat) (v y : f64) : Prop := (k <= 9)%nat /\ fgood v /\ fgood y /\ (k = 0%nat \/ X <= 9) /\
  Rabs (fval y - (X + INR k)) <= gam k * (X + INR k) /\ Rabs (fval v + S' k) <= 22 / 10 * INR k * (uro * B).
Lemma LI_0 : LI 0 zero x.
Proof.
  split; [lia|]. split; [split; reflexivity|]. split; [exact Gx|]. split; [left; reflexivity|]. split.
  - cbn [INR]. rewrite Rplus_0_r, Rminus_diag_eq by reflexivity. rewrite Rabs_R0. apply Rmult_le_pos; [apply gam_pos|pose proof X_pos; lra].
  - change (fval zero) with 0. change (S' 0) with 0. rewrite Rplus_0_r, Rabs_R0. cbn [INR]. lra.
Qed.
Lemma LI_step k v y : LI k v y -> fval y < 17 / 2 -> (k <= 8)%nat /\ LI (S k) (sub v (div one y)) (add y one).
Proof.
  intros (Hk & (Vv & Fv) & (Vy & Fy) & HX & Hy & Hv) Hlt. pose proof X_pos as XP. pose proof invX as IX. pose proof uro_pos as U. pose proof uro_tiny as U1.
  pose proof (gam_9 k Hk) as G9. pose proof (gam_pos k) as G0. pose proof (pos_INR k) as K0. assert (K9 : INR k <= 9) by (apply le_INR in Hk; simpl in Hk; lra).
  pose proof eta64_pos as E0. pose proof eta_small as E1. assert (BP : bpow radix2 (-1000) <= 1) by (change 1 with (bpow radix2 0); apply bpow_le; lia).
  assert (UB : uro * bpow radix2 (-1000) <= uro * 1) by (apply Rmult_le_compat_l; lra).
  set (z := X + INR k) in *. assert (Z0 : 0 < z) by (unfold z; lra). assert (ZX : X <= z) by (unfold z; lra).
  assert (G6 : gam k <= / 1000000). { assert (INR k * uro <= 9 * / 1000000000000000) by (apply Rmult_le_compat; lra). lra. }
  assert (Gz : gam k * z <= / 1000000 * z) by (apply Rmult_le_compat_r; lra).
  assert (Y0 : 999999 / 1000000 * z <= fval y) by (revert Hy; unfold Rabs; destruct Rcase_abs; lra).
  assert (Y1 : fval y <= z + gam k * z) by (revert Hy; unfold Rabs; destruct Rcase_abs; lra).
  assert (Z9 : z <= 86 / 10) by lra. assert (K8 : (k <= 8)%nat).
  { assert (INR k < INR 9) by (simpl; unfold z in Z9; lra). apply INR_lt in H. lia. }
  split; [exact K8|]. assert (Y2 : 0 < fval y) by lra.
  assert (IZ : 0 < / z <= / X) by (split; [apply Rinv_0_lt_compat; lra|apply Rinv_le_contravar; lra]).
  assert (IY : / fval y <= 101 / 100 * / z). { replace (101 / 100 * / z) with (/ (100 / 101 * z)) by (field; lra). apply Rinv_le_contravar; lra. }
  assert (IY0 : 0 < / fval y) by (apply Rinv_0_lt_compat; lra).
  assert (B0 : 3 <= B) by lra. assert (UB0 : 3 * uro <= uro * B) by (assert (uro * 3 <= uro * B) by (apply Rmult_le_compat_l; lra); lra).
  assert (BB : 4 * bpow radix2 1000 <= bpow radix2 1023).
  { replace 1023%Z with (23 + 1000)%Z by lia. rewrite (bpow_plus radix2 23 1000). apply Rmult_le_compat_r; [apply bpow_ge_0|]. simpl. lra. }
  assert (B1 : 100 <= bpow radix2 1000) by (apply Rle_trans with (bpow radix2 7); [simpl; lra|apply bpow_le; lia]).
  destruct one_ok as (V1 & F1).
  destruct (fdiv_ok one y V1 Vy F1 Fy) as (Vd & Fd & Ed). { lra. } { rewrite fval_one. unfold Rdiv. rewrite Rmult_1_l, Rabs_pos_eq by lra. lra. }
  rewrite fval_one in Ed. unfold Rdiv in Ed. rewrite Rmult_1_l, (Rabs_pos_eq (/ fval y)) in Ed by lra.
  assert (D1 : Rabs (/ fval y - / z) <= gam k * / fval y).
  { replace (/ fval y - / z) with (- ((fval y - z) * (/ fval y * / z))) by (field; lra). rewrite Rabs_Ropp, Rabs_mult, (Rabs_pos_eq (/ fval y * / z)) by (left; apply Rmult_lt_0_compat; lra).
    apply Rle_trans with (gam k * z * (/ fval y * / z)); [apply Rmult_le_compat_r; [left; apply Rmult_lt_0_compat; lra|exact Hy]|]. right. field. lra. }
  assert (D2 : Rabs (fval (div one y) - / z) <= 11 / 10 * (uro * B)).
  { replace (fval (div one y) - / z) with ((fval (div one y) - / fval y) + (/ fval y - / z)) by ring. eapply Rle_trans; [apply Rabs_triang|].
    apply Rle_trans with ((uro + gam k) * / fval y + eta64); [lra|].
    apply Rle_trans with ((uro * (1 + 1001 / 1000 * INR k)) * (101 / 100 * / z) + eta64); [apply Rplus_le_compat_r, Rmult_le_compat; lra|].
    assert (Q : (1 + 1001 / 1000 * INR k) * (101 / 100 * / z) <= 105 / 100 * B).
    { destruct k as [|k']; [cbn [INR] in *; lra|]. set (K := INR (S k')) in *. assert (K1 : 1 <= K) by (unfold K; rewrite S_INR; pose proof (pos_INR k'); lra).
      assert (IK : / z <= / K) by (apply Rinv_le_contravar; unfold z; lra). assert (KI : K * / K = 1) by (field; lra). assert (IK1 : / K <= 1) by (rewrite <- Rinv_1; apply Rinv_le_contravar; lra).
      apply Rle_trans with ((1 + 1001 / 1000 * K) * (101 / 100 * / K)); [apply Rmult_le_compat_l; lra|].
      replace ((1 + 1001 / 1000 * K) * (101 / 100 * / K)) with (101 / 100 * / K + 1001 / 1000 * (101 / 100) * (K * / K)) by ring. rewrite KI. lra. }
    assert (uro * ((1 + 1001 / 1000 * INR k) * (101 / 100 * / z)) <= uro * (105 / 100 * B)) by (apply Rmult_le_compat_l; lra). lra. }
  pose proof (S_bound (S k) ltac:(lia)) as SB. rewrite rsum_S in SB. fold z in SB. pose proof (S_bound k Hk) as SB'.
  assert (KB : INR k * (uro * B) <= 9 * (uro * B)) by (apply Rmult_le_compat_r; lra).
  assert (UBB : uro * B <= / 1000000 * B) by (apply Rmult_le_compat_r; lra).
  assert (VD : Rabs (fval v - fval (div one y)) <= 1001 / 1000 * B).
  { replace (fval v - fval (div one y)) with ((fval v + S' k) - (fval (div one y) - / z) - (S' k + / z)) by ring.
    revert D2 Hv. unfold Rabs. repeat destruct Rcase_abs; lra. }
  destruct (fsub_ok v (div one y) Vv Vd Fv Fd) as (Vs & Fs & Es). { lra. }
  destruct (fadd_ok y one Vy V1 Fy F1) as (Va & Fa & Ea). { rewrite fval_one, Rabs_pos_eq by lra. lra. }
  rewrite fval_one, (Rabs_pos_eq (fval y + 1)) in Ea by lra.
  split; [lia|]. split; [split; assumption|]. split; [split; assumption|]. split; [right; unfold z in Z9; lra|]. split.
  - rewrite S_INR, gam_S. replace (X + (INR k + 1)) with (z + 1) by (unfold z; ring).
    replace (fval (add y one) - (z + 1)) with ((fval (add y one) - (fval y + 1)) + (fval y - z)) by ring. eapply Rle_trans; [apply Rabs_triang|].
    assert (UY : uro * (fval y + 1) <= uro * (z + gam k * z + 1)) by (apply Rmult_le_compat_l; lra).
    assert (0 <= gam k * (1 + uro)) by (apply Rmult_le_pos; lra). lra.
  - rewrite rsum_S, S_INR. fold z. assert (UV : uro * Rabs (fval v - fval (div one y)) <= uro * (1001 / 1000 * B)) by (apply Rmult_le_compat_l; lra).
    replace (fval (sub v (div one y)) + (S' k + / z)) with ((fval (sub v (div one y)) - (fval v - fval (div one y))) + (fval v + S' k) - (fval (div one y) - / z)) by ring.
    clear - UV Es Hv D2 UB0 U. revert UV Es Hv D2. unfold Rabs. repeat destruct Rcase_abs; lra.
Qed.
Lemma loop_f64 : forall m k v y, (k + m = 9)%nat -> LI k v y -> forall fuel, (m <= fuel)%nat ->
  exists k' v' y', digamma_loop fuel v y = Some (v', y') /\ LI k' v' y' /\ 17 / 2 <= fval y'.
Proof.
  induction m as [|m IH]; intros k v y Hkm HL fuel Hf; destruct c172 as (V & F & Ec); pose proof HL as HL'; destruct HL' as (_ & _ & (Vy & Fy) & _).
  - assert (Hl : 17 / 2 <= fval y). { destruct (Rle_lt_dec (17 / 2) (fval y)) as [H|H]; [exact H|]. destruct (LI_step k v y HL H) as (H8 & _). lia. }
    exists k, v, y. split; [|split; assumption]. assert (Hb : ltb y (lit 17 2) = false) by (rewrite fltb_val, Ec by assumption; now apply Rlt_bool_false).
    destruct fuel; cbn [digamma_loop]; rewrite Hb; reflexivity.
  - destruct (Rle_lt_dec (17 / 2) (fval y)) as [H|H].
    + exists k, v, y. split; [|split; assumption]. assert (Hb : ltb y (lit 17 2) = false) by (rewrite fltb_val, Ec by assumption; now apply Rlt_bool_false).
      destruct fuel; cbn [digamma_loop]; rewrite Hb; reflexivity.
    + destruct (LI_step k v y HL H) as (H8 & HS). destruct fuel as [|fuel]; [lia|].
      assert (Hb : ltb y (lit 17 2) = true) by (rewrite fltb_val, Ec by assumption; now apply Rlt_bool_true).
      cbn [digamma_loop]. rewrite Hb. apply (IH (S k)); [lia|exact HS|lia].
Qed.
End Digam.

(** ** The asymptotic expansion *)
(** A coefficient and its rounded value. *)
Definition coef (c : f64) (C : R) : Prop := fgood c /\ 0 <= C <= / 12 /\ Rabs (fval c - C) <= uro / 10.
Ltac coef_tac := match goal with |- coef ?t _ => let v := eval vm_compute in t in replace t with v by (vm_compute; reflexivity) end;
  split; [split; vm_compute; reflexivity|]; split; [lra|]; rewrite fval_fin, uro_val; simpl; apply Rabs_le; lra.
Lemma coef_12 : coef (div one (lit 12 1)) (1 / 12). Proof. coef_tac. Qed.
Lemma coef_120 : coef (div one (lit 120 1)) (1 / 120). Proof. coef_tac. Qed.
Lemma coef_252 : coef (div one (lit 252 1)) (1 / 252). Proof. coef_tac. Qed.
Lemma coef_240 : coef (div one (lit 240 1)) (1 / 240). Proof. coef_tac. Qed.
Lemma coef_132 : coef (div one (lit 132 1)) (1 / 132). Proof. coef_tac. Qed.
Lemma coef_691 : coef (div (lit 691 1) (lit 32760 1)) (691 / 32760). Proof. coef_tac. Qed.
Lemma half_ok : fgood (lit 1 2) /\ fval (lit 1 2) = / 2.
Proof.
  replace (lit 1 2 : f64) with (S754_finite false 4503599627370496 (-53)) by (vm_compute; reflexivity). split; [split; vm_compute; reflexivity|]. rewrite fval_fin. simpl. lra.
Qed.
Lemma big_1023 : 1000000 <= bpow radix2 1023.
Proof. apply Rle_trans with (bpow radix2 20); [simpl; lra|apply bpow_le; lia]. Qed.
Lemma eta_uro : eta64 <= uro / 1000000.
Proof.
  eapply Rle_trans; [exact eta_small|]. pose proof uro_pos. assert (uro * bpow radix2 (-1000) <= uro * 1) by (apply Rmult_le_compat_l; [lra|change 1 with (bpow radix2 0); apply bpow_le; lia]). lra.
Qed.
(** The product with r^2. *)
Lemma rprod r2 R2 p P : fgood r2 -> 0 <= R2 <= / 72 -> Rabs (fval r2 - R2) <= uro / 10 -> fgood p -> Rabs P <= / 10 -> Rabs (fval p - P) <= uro ->
  fgood (mul r2 p) /\ Rabs (fval (mul r2 p) - R2 * P) <= uro / 10 /\ Rabs (R2 * P) <= / 720.
Proof.
  intros (Vr & Fr) HR Hr (Vp & Fp) HP Hp. pose proof uro_pos as U. pose proof uro_tiny as U1. pose proof eta_uro as E1. pose proof eta64_pos as E0. pose proof big_1023 as B.
  assert (RP : Rabs (R2 * P) <= / 72 * / 10) by (apply mul_bound; [rewrite Rabs_pos_eq; lra|exact HP]).
  assert (R3 : Rabs (fval r2) <= / 71) by (revert Hr; unfold Rabs; repeat destruct Rcase_abs; lra).
  assert (D : Rabs (fval r2 * fval p - R2 * P) <= / 71 * uro + uro / 10 * / 10).
  { replace (fval r2 * fval p - R2 * P) with (fval r2 * (fval p - P) + (fval r2 - R2) * P) by ring. eapply Rle_trans; [apply Rabs_triang|]. apply Rplus_le_compat; apply mul_bound; assumption. }
  assert (M : Rabs (fval r2 * fval p) <= / 100).
  { replace (fval r2 * fval p) with ((fval r2 * fval p - R2 * P) + R2 * P) by ring. eapply Rle_trans; [apply Rabs_triang|]. lra. }
  destruct (fmul_ok r2 p Vr Vp Fr Fp) as (V & F & Em); [lra|]. split; [split; assumption|]. split; [|lra].
  assert (uro * Rabs (fval r2 * fval p) <= uro * / 100) by (apply Rmult_le_compat_l; lra).
  replace (fval (mul r2 p) - R2 * P) with ((fval (mul r2 p) - fval r2 * fval p) + (fval r2 * fval p - R2 * P)) by ring. eapply Rle_trans; [apply Rabs_triang|]. lra.
Qed.
Lemma hstep r2 R2 c C p P : fgood r2 -> 0 <= R2 <= / 72 -> Rabs (fval r2 - R2) <= uro / 10 -> coef c C -> fgood p -> Rabs P <= / 10 -> Rabs (fval p - P) <= uro ->
  fgood (sub c (mul r2 p)) /\ Rabs (C - R2 * P) <= / 10 /\ Rabs (fval (sub c (mul r2 p)) - (C - R2 * P)) <= uro.
Proof.
  intros Gr HR Hr ((Vc & Fc) & HC & Hc) Gp HP Hp. pose proof uro_pos as U. pose proof uro_tiny as U1. pose proof big_1023 as B.
  destruct (rprod r2 R2 p P Gr HR Hr Gp HP Hp) as ((Vm & Fm) & Em & Bm).
  assert (T1 : Rabs (C - R2 * P) <= / 11) by (revert Bm; unfold Rabs; repeat destruct Rcase_abs; lra).
  assert (T2 : Rabs (fval c - fval (mul r2 p) - (C - R2 * P)) <= uro / 5).
  { replace (fval c - fval (mul r2 p) - (C - R2 * P)) with ((fval c - C) - (fval (mul r2 p) - R2 * P)) by ring. eapply Rle_trans; [apply Rabs_triang|]. rewrite Rabs_Ropp. lra. }
  assert (T3 : Rabs (fval c - fval (mul r2 p)) <= / 10).
  { replace (fval c - fval (mul r2 p)) with ((fval c - fval (mul r2 p) - (C - R2 * P)) + (C - R2 * P)) by ring. eapply Rle_trans; [apply Rabs_triang|]. lra. }
  destruct (fsub_ok c (mul r2 p) Vc Vm Fc Fm) as (V & F & Es); [lra|]. split; [split; assumption|]. split; [lra|].
  assert (uro * Rabs (fval c - fval (mul r2 p)) <= uro * / 10) by (apply Rmult_le_compat_l; lra).
  replace (fval (sub c (mul r2 p)) - (C - R2 * P)) with ((fval (sub c (mul r2 p)) - (fval c - fval (mul r2 p))) + (fval c - fval (mul r2 p) - (C - R2 * P))) by ring.
  eapply Rle_trans; [apply Rabs_triang|]. lra.
Qed.
Lemma coef_start c C : coef c C -> fgood c /\ Rabs C <= / 10 /\ Rabs (fval c - C) <= uro.
Proof. intros (G & HC & Hc). pose proof uro_pos. split; [exact G|]. split; [rewrite Rabs_pos_eq; lra|lra]. Qed.
Lemma tail_f64 (E : EOps f64) a v y : 0 <= a <= 1000000 -> ln_acc a tln -> fgood v -> fgood y -> Rabs (fval v) <= bpow radix2 1001 -> 17 / 2 <= fval y <= bpow radix2 1001 ->
  fgood (digamma_tail v y) /\ Rabs (fval (digamma_tail v y) - (fval v + dm_T 0 (fval y))) <= uro * (a * ln (fval y) + 4 * (Rabs (fval v) + ln (fval y) + 1)).
Proof.
  intros Ha HL (Vv & Fv) (Vy & Fy) Hv Hy. pose proof uro_pos as U. pose proof uro_tiny as U1. pose proof eta_uro as E1. pose proof eta64_pos as E0. pose proof big_1023 as B.
  set (Y := fval y) in *. set (V := fval v) in *. set (l := ln Y).
  assert (L0 : 0 < l). { unfold l. rewrite <- ln_1. apply ln_increasing; lra. }
  assert (L1 : l <= 2000).
  { unfold l. apply Rle_trans with (ln (bpow radix2 1001)). - destruct (proj2 Hy) as [H| ->]; [left; apply ln_increasing; lra|lra].
    - rewrite bpow_exp, ln_exp. assert (ln 2 <= 1) by (rewrite <- (ln_exp 1); left; apply ln_increasing; [lra|pose proof (exp_ineq1 1); lra]). change (ln (IZR radix2)) with (ln 2). lra. }
  destruct (HL y (conj Vy Fy)) as ((Vl & Fl) & El). { fold Y. lra. } fold Y l in El. rewrite (Rabs_pos_eq l) in El by lra.
  destruct one_ok as (V1 & F1). assert (IY : 0 < / Y <= 2 / 17) by (split; [apply Rinv_0_lt_compat; lra|replace (2 / 17) with (/ (17 / 2)) by field; apply Rinv_le_contravar; lra]).
  destruct (fdiv_ok one y V1 Vy F1 Fy) as (Vr & Fr & Er). { fold Y. lra. } { rewrite fval_one. fold Y. unfold Rdiv. rewrite Rmult_1_l, Rabs_pos_eq; lra. }
  rewrite fval_one in Er. fold Y in Er. unfold Rdiv in Er. rewrite Rmult_1_l, (Rabs_pos_eq (/ Y)) in Er by lra. set (r := div one y) in *.
  assert (UI : uro * / Y <= uro * (2 / 17)) by (apply Rmult_le_compat_l; lra).
  assert (R1 : Rabs (fval r - / Y) <= 12 / 100 * uro) by lra. assert (R1' : Rabs (fval r) <= 12 / 100) by (revert R1; unfold Rabs; repeat destruct Rcase_abs; lra).
  (* r^2 *)
  set (R2 := / Y * / Y). assert (HR2 : 0 <= R2 <= / 72). { unfold R2. split; [left; apply Rmult_lt_0_compat; lra|]. apply Rle_trans with (2 / 17 * (2 / 17)); [apply Rmult_le_compat; lra|lra]. }
  assert (M1 : Rabs (fval r * fval r - R2) <= 3 / 100 * uro).
  { unfold R2. replace (fval r * fval r - / Y * / Y) with (fval r * (fval r - / Y) + (fval r - / Y) * / Y) by ring. eapply Rle_trans; [apply Rabs_triang|].
    pose proof (mul_bound _ _ _ _ R1' R1). assert (IY' : Rabs (/ Y) <= 12 / 100) by (rewrite Rabs_pos_eq; lra). pose proof (mul_bound _ _ _ _ R1 IY'). lra. }
  assert (M2 : Rabs (fval r * fval r) <= / 70) by (revert M1; unfold Rabs; repeat destruct Rcase_abs; lra).
  destruct (fmul_ok r r Vr Vr Fr Fr) as (Vq & Fq & Eq); [lra|]. set (q := mul r r) in *.
  assert (Hq : Rabs (fval q - R2) <= uro / 10).
  { assert (uro * Rabs (fval r * fval r) <= uro * / 70) by (apply Rmult_le_compat_l; lra). replace (fval q - R2) with ((fval q - fval r * fval r) + (fval r * fval r - R2)) by ring. eapply Rle_trans; [apply Rabs_triang|]. lra. }
  assert (Gq : fgood q) by (split; assumption).
  destruct (coef_start _ _ coef_12) as (G7 & B7 & H7).
  destruct (hstep q R2 _ _ _ _ Gq HR2 Hq coef_691 G7 B7 H7) as (G6 & B6 & H6).
  destruct (hstep q R2 _ _ _ _ Gq HR2 Hq coef_132 G6 B6 H6) as (G5 & B5 & H5).
  destruct (hstep q R2 _ _ _ _ Gq HR2 Hq coef_240 G5 B5 H5) as (G4 & B4 & H4).
  destruct (hstep q R2 _ _ _ _ Gq HR2 Hq coef_252 G4 B4 H4) as (G3 & B3 & H3).
  destruct (hstep q R2 _ _ _ _ Gq HR2 Hq coef_120 G3 B3 H3) as (G2 & B2 & H2).
  destruct (hstep q R2 _ _ _ _ Gq HR2 Hq coef_12 G2 B2 H2) as (G1 & B1 & H1).
  destruct (rprod q R2 _ _ Gq HR2 Hq G1 B1 H1) as ((Vw & Fw) & Hw & Bw).
  match type of Hw with Rabs (fval ?w0 - ?W0) <= _ => set (w := w0) in *; set (W := W0) in * end.
  (* 0.5 r *)
  destruct half_ok as ((Vh & Fh) & Eh). assert (HB : Rabs (fval (lit 1 2) * fval r) <= 1). { rewrite Eh, Rabs_mult, (Rabs_pos_eq (/ 2)) by lra. lra. }
  destruct (fmul_ok (lit 1 2) r Vh Vr Fh Fr) as (Vg & Fg & Eg); [lra|]. rewrite Eh in Eg. set (g := mul (lit 1 2) r) in *.
  assert (Hg : Rabs (fval g - / 2 * / Y) <= 14 / 100 * uro).
  { replace (fval g - / 2 * / Y) with ((fval g - / 2 * fval r) + / 2 * (fval r - / Y)) by ring. eapply Rle_trans; [apply Rabs_triang|]. rewrite !Rabs_mult, !(Rabs_pos_eq (/ 2)) in * by lra.
    assert (uro * (/ 2 * Rabs (fval r)) <= uro * (/ 2 * (12 / 100))) by (apply Rmult_le_compat_l; lra). lra. }
  (* the sums *)
  assert (AU : 0 <= a * uro <= / 1000000) by (split; [apply Rmult_le_pos; lra|apply Rle_trans with (1000000 * / 1000000000000000); [apply Rmult_le_compat; lra|lra]]).
  assert (AL : a * uro * l <= / 1000000 * l) by (apply Rmult_le_compat_r; lra).
  assert (L2 : Rabs (fval (tln y)) <= 1001 / 1000 * l + / 1000) by (revert El; unfold Rabs; repeat destruct Rcase_abs; lra).
  set (M := Rabs V + l + 1). assert (MV : 0 <= Rabs V) by apply Rabs_pos.
  assert (B8 : 4 * bpow radix2 1001 <= bpow radix2 1023). { replace 1023%Z with (22 + 1001)%Z by lia. rewrite (bpow_plus radix2 22 1001). apply Rmult_le_compat_r; [apply bpow_ge_0|]. simpl. lra. }
  assert (B9 : 8192 <= bpow radix2 1001) by (apply Rle_trans with (bpow radix2 13); [simpl; lra|apply bpow_le; lia]).
  assert (S1 : Rabs (V + fval (tln y)) <= 1001 / 1000 * M) by (unfold M; eapply Rle_trans; [apply Rabs_triang|]; lra).
  assert (MB : 1001 / 1000 * M + 2 <= bpow radix2 1023) by (unfold M; lra).
  destruct (fadd_ok v (tln y) Vv Vl Fv Fl) as (Vs & Fs & Es). { fold V. lra. } fold V in Es. set (s1 := add v (tln y)) in *.
  assert (UM : uro * M <= / 1000000 * M) by (apply Rmult_le_compat_r; unfold M; lra). assert (UM0 : uro <= uro * M) by (rewrite <- (Rmult_1_r uro) at 1; apply Rmult_le_compat_l; unfold M; lra).
  assert (Es' : Rabs (fval s1 - (V + l)) <= 102 / 100 * (uro * M) + a * uro * l).
  { assert (uro * Rabs (V + fval (tln y)) <= uro * (1001 / 1000 * M)) by (apply Rmult_le_compat_l; lra).
    replace (fval s1 - (V + l)) with ((fval s1 - (V + fval (tln y))) + (fval (tln y) - l)) by ring. eapply Rle_trans; [apply Rabs_triang|]. lra. }
  assert (VL : Rabs (V + l) <= M - 1) by (unfold M; eapply Rle_trans; [apply Rabs_triang|]; rewrite (Rabs_pos_eq l); lra).
  assert (S2 : Rabs (fval s1 - fval g) <= 1001 / 1000 * M).
  { assert (Rabs (fval s1) <= 102 / 100 * (uro * M) + a * uro * l + (M - 1)). { replace (fval s1) with ((fval s1 - (V + l)) + (V + l)) by ring. eapply Rle_trans; [apply Rabs_triang|]. lra. }
    assert (Rabs (fval g) <= 14 / 100 * uro + / 2 * / Y). { replace (fval g) with ((fval g - / 2 * / Y) + / 2 * / Y) by ring. eapply Rle_trans; [apply Rabs_triang|]. rewrite (Rabs_pos_eq (/ 2 * / Y)); lra. }
    eapply Rle_trans; [apply Rabs_triang|]. rewrite Rabs_Ropp. unfold M in *. lra. }
  destruct (fsub_ok s1 g Vs Vg Fs Fg) as (Vt & Ft & Et). { lra. } set (s2 := sub s1 g) in *.
  assert (Et' : Rabs (fval s2 - (V + l - / 2 * / Y)) <= 217 / 100 * (uro * M) + a * uro * l).
  { assert (uro * Rabs (fval s1 - fval g) <= uro * (1001 / 1000 * M)) by (apply Rmult_le_compat_l; lra).
    replace (fval s2 - (V + l - / 2 * / Y)) with ((fval s2 - (fval s1 - fval g)) + ((fval s1 - (V + l)) + - (fval g - / 2 * / Y))) by ring.
    eapply Rle_trans; [apply Rabs_triang|]. pose proof (Rabs_triang (fval s1 - (V + l)) (- (fval g - / 2 * / Y))) as T. rewrite Rabs_Ropp in T. lra. }
  assert (S3 : Rabs (fval s2 - fval w) <= 1001 / 1000 * M).
  { assert (T1 : Rabs (V + l - / 2 * / Y) <= M - 9 / 10). { replace (V + l - / 2 * / Y) with ((V + l) + - (/ 2 * / Y)) by ring. eapply Rle_trans; [apply Rabs_triang|]. rewrite Rabs_Ropp, (Rabs_pos_eq (/ 2 * / Y)) by lra. lra. }
    revert Et' Hw Bw T1. clear - IY AL UM U1 L0 MV. generalize (fval s2) (fval w). intros p2 pw. generalize (V + l - / 2 * / Y). intro C0. intros. unfold M in *.
    assert (Rabs p2 <= 217 / 100 * (uro * (Rabs V + l + 1)) + a * uro * l + (Rabs V + l + 1 - 9 / 10)). { replace p2 with ((p2 - C0) + C0) by ring. eapply Rle_trans; [apply Rabs_triang|]. lra. }
    assert (Rabs pw <= uro / 10 + / 720). { replace pw with ((pw - W) + W) by ring. eapply Rle_trans; [apply Rabs_triang|]. lra. }
    eapply Rle_trans; [apply Rabs_triang|]. rewrite Rabs_Ropp. lra. }
  destruct (fsub_ok s2 w Vt Vw Ft Fw) as (Vz & Fz & Ez). { lra. }
  assert (ET : digamma_tail v y = sub s2 w) by reflexivity. rewrite ET. split; [split; assumption|].
  assert (ED : V + dm_T 0 Y = (V + l - / 2 * / Y) - W). { unfold dm_T, dm_h, W, R2. fold l. field. lra. }
  rewrite ED. assert (uro * Rabs (fval s2 - fval w) <= uro * (1001 / 1000 * M)) by (apply Rmult_le_compat_l; lra).
  replace (fval (sub s2 w) - ((V + l - / 2 * / Y) - W)) with ((fval (sub s2 w) - (fval s2 - fval w)) + ((fval s2 - (V + l - / 2 * / Y)) + - (fval w - W))) by ring.
  eapply Rle_trans; [apply Rabs_triang|]. pose proof (Rabs_triang (fval s2 - (V + l - / 2 * / Y)) (- (fval w - W))) as T. rewrite Rabs_Ropp in T.
  fold M. lra.
Qed.

(** ** The result *)
Lemma tail_acc Y psi : 17 / 2 <= Y -> is_digamma Y psi -> Rabs (dm_T 0 Y - psi) <= 6 / 10000000000000000.
Proof.
  intros HY D. assert (E : sdigamma 0 Y = Some (dm_T 0 Y)).
  { unfold sdigamma. cbn [digamma_loop]. replace (ltb Y (lit 17 2)) with false; [rewrite digamma_tail_dm; f_equal; change zero with 0; ring|].
    symmetry. rewrite OdeOrder_proofs.lit_R. change (R_ltb Y (17 / 2) = false). unfold R_ltb. destruct Rlt_dec; [lra|reflexivity]. }
  pose proof (sdigamma_accuracy 0 Y _ psi D E). apply Rabs_le. lra.
Qed.
Lemma digamma_f64 (E : EOps f64) a x : 0 <= a <= 1000000 -> ln_acc a tln -> fgood x -> bpow radix2 (-1000) <= fval x <= bpow radix2 1000 ->
  forall fuel, (9 <= fuel)%nat -> exists v, sdigamma fuel x = Some v /\ fgood v /\
  forall psi, is_digamma (fval x) psi -> Rabs (fval v - psi) <= uro * (24 / fval x + (a + 4) * ln (fval x + 10) + 110).
Proof.
  intros Ha HL Gx HX fuel Hf. pose proof uro_pos as U. pose proof uro_tiny as U1.
  destruct (loop_f64 x (proj1 HX) 9 0 zero x eq_refl (LI_0 x Gx (proj1 HX)) fuel Hf) as (k & v & y & EL & (Hk & Gv & Gy & HX9 & Hy & Hv) & Hy8).
  pose proof (X_pos x (proj1 HX)) as XP. pose proof (invX x (proj1 HX)) as IX. pose proof (S_bound x (proj1 HX) k Hk) as SB.
  pose proof (gam_9 k Hk) as G9. pose proof (gam_pos k) as G0. pose proof (pos_INR k) as K0. assert (K9 : INR k <= 9) by (apply le_INR in Hk; simpl in Hk; lra).
  set (X := fval x) in *. set (Y := fval y) in *. set (V := fval v) in *. set (B := / X + 3) in *. set (S := rsum k (fun j => / (X + INR j))) in *.
  assert (KU : INR k * uro <= 9 * uro) by (apply Rmult_le_compat_r; lra). assert (G6 : gam k <= 901 / 100 * uro) by lra.
  assert (YY : Rabs (Y - (X + INR k)) <= 163 * uro /\ Y <= X + 10 /\ 84 / 10 <= X + INR k).
  { destruct HX9 as [-> |H9].
    - cbn [INR] in *. unfold gam in Hy. simpl in Hy. replace ((1 - 1) * (X + 0)) with 0 in Hy by ring.
      assert (EY : Y = X) by (revert Hy; unfold Rabs; destruct Rcase_abs; lra). rewrite EY. rewrite Rplus_0_r, Rminus_diag_eq, Rabs_R0 by reflexivity. lra.
    - assert (HG : gam k * (X + INR k) <= 901 / 100 * uro * 18) by (apply Rmult_le_compat; lra). split; [lra|]. revert Hy. unfold Rabs. destruct Rcase_abs; lra. }
  destruct YY as (YE & YX & Y84).
  assert (B0 : 3 <= B) by (unfold B; lra). assert (UB : uro * B <= / 1000000 * B) by (apply Rmult_le_compat_r; lra).
  assert (UB0 : 0 <= uro * B) by (apply Rmult_le_pos; lra).
  assert (KB : INR k * (uro * B) <= 9 * (uro * B)) by (apply Rmult_le_compat_r; lra).
  assert (VB : Rabs V <= 1001 / 1000 * B). { replace V with ((V + S) + - S) by ring. eapply Rle_trans; [apply Rabs_triang|]. rewrite Rabs_Ropp, (Rabs_pos_eq S) by lra. lra. }
  assert (B2 : bpow radix2 1001 = 2 * bpow radix2 1000) by (replace 1001%Z with (1 + 1000)%Z by lia; rewrite bpow_plus; reflexivity).
  assert (B1 : 1000 <= bpow radix2 1000) by (apply Rle_trans with (bpow radix2 10); [simpl; lra|apply bpow_le; lia]).
  destruct (tail_f64 E a v y Ha HL Gv Gy) as (Gt & Et). { fold V. unfold B in VB. lra. } { fold Y. lra. } fold V Y in Et.
  exists (digamma_tail v y). split; [unfold sdigamma; rewrite EL; reflexivity|]. split; [exact Gt|]. intros psi D.
  destruct (digamma_exists_pos Y ltac:(lra)) as (psi' & D').
  pose proof (tail_acc Y psi' Hy8 D') as T1. pose proof (digamma_iter k X psi D) as D2. fold S in D2.
  pose proof (digamma_lip (84 / 10) Y (X + INR k) psi' (psi + S) ltac:(lra) ltac:(lra) Y84 D' D2) as T2.
  assert (T2' : Rabs (psi' - (psi + S)) <= 2203 / 100 * uro) by lra.
  assert (LY : ln Y <= ln (X + 10)) by (destruct YX as [H| ->]; [left; apply ln_increasing; lra|lra]).
  assert (L0 : 0 < ln Y) by (rewrite <- ln_1; apply ln_increasing; lra).
  assert (U6 : 6 / 10000000000000000 <= 541 / 100 * uro) by (rewrite uro_val; lra).
  assert (Et' : uro * (a * ln Y + 4 * (Rabs V + ln Y + 1)) <= uro * ((a + 4) * ln (X + 10) + 4 * (1001 / 1000 * B + 1))).
  { apply Rmult_le_compat_l; [lra|]. assert ((a + 4) * ln Y <= (a + 4) * ln (X + 10)) by (apply Rmult_le_compat_l; lra). lra. }
  replace (fval (digamma_tail v y) - psi) with ((fval (digamma_tail v y) - (V + dm_T 0 Y)) + ((V + S) + ((dm_T 0 Y - psi') + (psi' - (psi + S))))) by ring.
  eapply Rle_trans; [apply Rabs_triang|]. pose proof (Rabs_triang (V + S) ((dm_T 0 Y - psi') + (psi' - (psi + S)))) as Q1. pose proof (Rabs_triang (dm_T 0 Y - psi') (psi' - (psi + S))) as Q2.
  apply Rle_trans with (uro * ((a + 4) * ln (X + 10) + 4 * (1001 / 1000 * B + 1)) + 22 / 10 * (9 * (uro * B)) + 541 / 100 * uro + 2203 / 100 * uro); [lra|].
  unfold B, Rdiv. assert (0 <= uro * / X) by (apply Rmult_le_pos; lra). lra.
Qed.
(** At the pole 0 the loop divides by zero. *)
Lemma loop_mono {T} {O : Ops T} n : forall fuel (v x : T) r, (n <= fuel)%nat -> digamma_loop n v x = Some r -> digamma_loop fuel v x = Some r.
Proof.
  induction n as [|n IH]; intros fuel v x r Hf H.
  - cbn [digamma_loop] in H. destruct fuel; cbn [digamma_loop]; destruct (ltb x (lit 17 2)); try discriminate; exact H.
  - destruct fuel as [|fuel]; [lia|]. cbn [digamma_loop] in *. destruct (ltb x (lit 17 2)); [|exact H]. apply IH; [lia|exact H].
Qed.
Lemma loop_pole : digamma_loop 9 (zero : f64) zero = Some (S754_infinity true : f64, S754_finite false 5066549580791808 (-49) : f64).
Proof. vm_compute. reflexivity. Qed.
Lemma neg_inf_add t : ffin t = true -> @add f64 F64_ops (S754_infinity true) t = S754_infinity true.
Proof. intro F. destruct t as [s|s| |s m e]; try discriminate F; reflexivity. Qed.
Lemma digamma_pole (E : EOps f64) a : ln_acc a tln -> forall fuel, (9 <= fuel)%nat -> sdigamma (T := f64) fuel zero = Some (S754_infinity true).
Proof.
  intros HL fuel Hf. unfold sdigamma. rewrite (loop_mono 9 fuel _ _ _ Hf loop_pole). unfold digamma_tail. set (y := S754_finite false 5066549580791808 (-49) : f64).
  destruct (HL y) as ((_ & F) & _). { split; vm_compute; reflexivity. } { unfold y. rewrite fval_fin. simpl. lra. }
  cbv zeta. rewrite (neg_inf_add _ F). f_equal.
Qed.
