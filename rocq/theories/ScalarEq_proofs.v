(** Proofs about sign, abs and approximate equality of scalars, over the reals and over binary64. *)
From Coq Require Import ZArith Reals Lra Lia Bool SpecFloat.
From Verif Require Import Outcome Scalar Approx_model Int_model Elem_proofs Ortho_proofs ComplexFun_proofs.
Local Open Scope R_scope.

Lemma fsign_R (x : R) : (0 < x -> fsign x = 1) /\ (x = 0 -> fsign x = 0) /\ (x < 0 -> fsign x = -1).
Proof.
  unfold fsign. cbn [ltb leb zero one neg R_ops]. repeat split; intros H.
  - rewrite (proj2 (R_ltb_true 0 x)) by lra. reflexivity.
  - rewrite (proj2 (R_ltb_false 0 x)) by lra. rewrite (proj2 (R_leb_true 0 x)) by lra. rewrite (proj2 (R_leb_true x 0)) by lra. reflexivity.
  - rewrite (proj2 (R_ltb_false 0 x)) by lra. rewrite (proj2 (R_leb_false 0 x)) by lra. reflexivity.
Qed.
Lemma fabs_R (x : R) : fabs x = Rabs x.
Proof.
  unfold fabs, fis_negative. cbn [ltb zero neg R_ops]. destruct (R_ltb x 0) eqn:E.
  - apply R_ltb_true in E. rewrite Rabs_left by lra. reflexivity.
  - apply R_ltb_false in E. rewrite Rabs_pos_eq by lra. reflexivity.
Qed.

Lemma fcmp_refl (x : f64) : x <> S754_nan -> SFcompare x x = Some Eq.
Proof.
  destruct x as [s|s| |s m e]; intros H; try reflexivity; try (destruct s; reflexivity); [congruence|].
  cbn. destruct s; rewrite Z.compare_refl, Pcompare_refl; reflexivity.
Qed.
Lemma fabs_f64 (x : f64) : x <> S754_nan -> eqb (fabs x) (SFabs x) = true.
Proof.
  intros H. cbn [eqb F64_ops]. unfold SFeqb. destruct x as [s|s| |s m e]; try reflexivity; [destruct s; reflexivity|congruence|].
  destruct s; unfold fabs, fis_negative; cbn; rewrite Z.compare_refl, Pcompare_refl; reflexivity.
Qed.

Lemma fbr_sign s1 s2 m e : SFabs (binary_round 53 1024 s1 m e) = SFabs (binary_round 53 1024 s2 m e).
Proof.
  unfold binary_round. destruct (shl_align _ _ _) as [mz ez]. unfold binary_round_aux.
  destruct (shr_fexp _ _ _ _ _) as [mrs e1]. destruct (shr_fexp _ _ _ _ _) as [mrs2 e2].
  destruct (shr_m mrs2); try reflexivity. destruct (Zle_bool _ _); reflexivity.
Qed.
Lemma fbn_opp z e : SFabs (binary_normalize 53 1024 (- z) e false) = SFabs (binary_normalize 53 1024 z e false).
Proof. destruct z as [|p|p]; cbn; [reflexivity|apply fbr_sign..]. Qed.
Lemma fsub_sym (a b : f64) : SFabs (SFsub 53 1024 a b) = SFabs (SFsub 53 1024 b a).
Proof.
  destruct a as [s|s| |s m e]; destruct b as [s'|s'| |s' m' e']; try reflexivity; try (destruct s; destruct s'; reflexivity).
  unfold SFsub. rewrite (Z.min_comm e' e). set (p := cond_Zopp s _). set (q := cond_Zopp s' _).
  replace (q - p)%Z with (- (p - q))%Z by lia. symmetry. apply fbn_opp.
Qed.
Lemma feq_sym (a b : f64) : eqb a b = eqb b a.
Proof.
  cbn [eqb F64_ops]. unfold SFeqb. destruct a as [s|s| |s m e]; destruct b as [s'|s'| |s' m' e']; try reflexivity; try (destruct s; destruct s'; reflexivity); try (destruct s; reflexivity); try (destruct s'; reflexivity).
  cbn. destruct s, s'; try reflexivity.
  - rewrite (Z.compare_antisym e e'). destruct (e ?= e')%Z; cbn; try reflexivity. change (Pos.compare_cont Eq) with Pos.compare. rewrite (Pos.compare_antisym m m'). destruct (m ?= m')%positive; reflexivity.
  - rewrite (Z.compare_antisym e e'). destruct (e ?= e')%Z; cbn; try reflexivity. change (Pos.compare_cont Eq) with Pos.compare. rewrite (Pos.compare_antisym m m'). destruct (m ?= m')%positive; reflexivity.
Qed.
Lemma sabs_sym_f64 (a b eps : f64) : sabs_diff_eq a b eps = sabs_diff_eq b a eps.
Proof. unfold sabs_diff_eq. cbn [sub tabs F64_ops]. rewrite fsub_sym. reflexivity. Qed.
Lemma leb_nan_l (x : f64) : leb S754_nan x = false.
Proof. reflexivity. Qed.
Lemma flargest_sym (a b : f64) : a <> S754_nan -> b <> S754_nan ->
  (if ltb (tabs a) (tabs b) then tabs b else tabs a) = (if ltb (tabs b) (tabs a) then tabs a else tabs b).
Proof.
  intros Ha Hb. cbn [ltb tabs F64_ops]. unfold SFltb.
  destruct a as [s|s| |s m e]; destruct b as [s'|s'| |s' m' e']; try reflexivity; try congruence.
  cbn. rewrite (Z.compare_antisym e e'). destruct (e ?= e')%Z eqn:E; cbn; try reflexivity.
  apply Z.compare_eq in E. subst e'. change (Pos.compare_cont Eq) with Pos.compare. rewrite (Pos.compare_antisym m m').
  destruct (m ?= m')%positive eqn:E2; cbn; try reflexivity. apply Pos.compare_eq in E2. subst m'. reflexivity.
Qed.
Lemma srel_sym_f64 (a b eps r : f64) : srelative_eq a b eps r = srelative_eq b a eps r.
Proof.
  unfold srelative_eq. rewrite (feq_sym a b). destruct (eqb b a); [reflexivity|].
  rewrite (orb_comm (is_infinite a)). destruct (is_infinite b || is_infinite a); [reflexivity|].
  replace (tabs (sub a b)) with (tabs (sub b a)) by (cbn [sub tabs F64_ops]; apply fsub_sym).
  destruct (leb (tabs (sub b a)) eps); [reflexivity|].
  assert (Hd : a = S754_nan \/ b = S754_nan \/ (a <> S754_nan /\ b <> S754_nan)).
  { destruct a; destruct b; try (left; reflexivity); try (right; left; reflexivity); right; right; split; discriminate. }
  destruct Hd as [->|[->|[Ha Hb]]].
  - replace (sub b S754_nan) with (S754_nan : f64) by (destruct b; reflexivity). reflexivity.
  - reflexivity.
  - cbv zeta. rewrite (flargest_sym a b Ha Hb). reflexivity.
Qed.
Lemma srel_refl_f64 (a eps r : f64) : srelative_eq a a eps r = true <-> a <> S754_nan.
Proof.
  split.
  - intros H E. subst a. unfold srelative_eq in H. cbn in H. discriminate.
  - intros H. unfold srelative_eq. replace (eqb a a) with true; [reflexivity|]. cbn [eqb F64_ops]. unfold SFeqb. rewrite fcmp_refl by exact H. reflexivity.
Qed.
Lemma srel_inf_f64 s (b eps r : f64) : srelative_eq (S754_infinity s) b eps r = true <-> b = S754_infinity s.
Proof.
  unfold srelative_eq. split.
  - destruct b as [s'|s'| |s' m e]; cbn; destruct s; try destruct s'; cbn; intros H; try discriminate; reflexivity.
  - intros ->. destruct s; reflexivity.
Qed.
Lemma sabs_R (a b eps : R) : sabs_diff_eq a b eps = true <-> Rabs (a - b) <= eps.
Proof. unfold sabs_diff_eq. cbn [leb tabs sub R_ops]. apply R_leb_true. Qed.
Lemma srel_R (a b eps r : R) :
  srelative_eq a b eps r = true <-> (a = b \/ Rabs (a - b) <= eps \/ Rabs (a - b) <= Rmax (Rabs a) (Rabs b) * r).
Proof.
  unfold srelative_eq. cbn [eqb leb ltb tabs sub mul R_ops is_infinite R_inf orb].
  destruct (R_eqb a b) eqn:E.
  - apply R_eqb_true in E. tauto.
  - apply R_eqb_false in E. destruct (R_leb (Rabs (a - b)) eps) eqn:E2.
    + apply R_leb_true in E2. tauto.
    + apply R_leb_false in E2. cbv zeta.
      replace (if R_ltb (Rabs a) (Rabs b) then Rabs b else Rabs a) with (Rmax (Rabs a) (Rabs b)).
      * rewrite R_leb_true. split; [tauto|]. intros [H|[H|H]]; [contradiction|lra|exact H].
      * destruct (R_ltb (Rabs a) (Rabs b)) eqn:E3.
        -- apply R_ltb_true in E3. apply Rmax_right. lra.
        -- apply R_ltb_false in E3. apply Rmax_left. lra.
Qed.
