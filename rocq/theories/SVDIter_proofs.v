(** The singular value iteration over the reals. *)
From Coq Require Import Arith List Bool Lia Ring Reals Lra Psatz.
From Verif Require Import Outcome Scalar Matrix_model Transpose_model Vector_model LU_model Decomp_model Spectral_model
  Matrix_spec LU_spec Decomp_spec Matrix_proofs Transpose_proofs Vector_proofs Sums MatProps_proofs VecProps_proofs
  LU_proofs Subst_proofs LUProps_proofs Chol_proofs Norm_proofs Ortho_proofs RealOps Householder_proofs Spectral_spec SVD_proofs.
Import ListNotations.
Local Open Scope R_scope.

Lemma mrot_zero (g : R) : mrot 0 g = (0, 1, g).
Proof. unfold mrot. replace (eqb 0 zero) with true by (symmetry; apply R_eqb_true; reflexivity). reflexivity. Qed.

Lemma sqrt1_pos t : 0 < sqrt (1 + t * t) /\ sqrt (1 + t * t) * sqrt (1 + t * t) = 1 + t * t.
Proof. assert (0 < 1 + t * t) by nra. split; [apply sqrt_lt_R0; assumption|apply sqrt_sqrt; lra]. Qed.

Lemma mrot_nonzero (f g : R) : f <> 0 -> exists c s r, mrot f g = (c, s, r) /\ c * c + s * s = 1 /\ c * g = s * f /\ r = c * f + s * g /\ c <> 0 /\ (g = 0 -> c = 1 /\ s = 0).
Proof.
  intros Hf. unfold mrot. replace (eqb f zero) with false.
  2:{ symmetry. apply not_true_iff_false. intros E. apply R_eqb_true in E. apply Hf. exact E. }
  destruct (ltb (tabs g) (tabs f)) eqn:El.
  - change (@div R R_ops) with Rdiv. change (@add R R_ops) with Rplus. change (@mul R R_ops) with Rmult. change (@one R R_ops) with 1.
    change (@tpow R R_pops) with R_pow. change (@two R R_pops) with 2. change (@half R R_pops) with (1/2).
    rewrite R_pow_2. destruct (sqrt1_pos (g / f)) as [Hp Hs].
    rewrite R_pow_half by nra. set (t1 := sqrt _) in *.
    eexists _, _, _. split; [reflexivity|]. assert (Ht : t1 <> 0) by lra.
    assert (HF : t1 * t1 * (f * f) = f * f + g * g) by (rewrite Hs; field; assumption).
    split; [|split; [|split; [|split]]].
    + apply (Rmult_eq_reg_r (t1 * t1 * (f * f))); [|repeat apply Rmult_integral_contrapositive_currified; assumption].
      transitivity (f * f + g * g); [field; auto|rewrite HF; ring].
    + field. auto.
    + apply (Rmult_eq_reg_r (t1 * f)); [|repeat apply Rmult_integral_contrapositive_currified; assumption].
      transitivity (f * f + g * g); [rewrite <- HF; ring|field; auto].
    + unfold Rdiv. rewrite Rmult_1_l. apply Rinv_neq_0_compat. assumption.
    + intros ->. assert (E0 : t1 = 1). { unfold t1. unfold Rdiv. rewrite Rmult_0_l, Rmult_0_l, Rplus_0_r. apply sqrt_1. }
      rewrite E0. split; field; auto.
  - assert (Hg : g <> 0).
    { intros ->. apply not_true_iff_false in El. apply El. change (ltb (tabs 0) (tabs f)) with (R_ltb (Rabs 0) (Rabs f)).
      unfold R_ltb. destruct (Rlt_dec (Rabs 0) (Rabs f)) as [|n]; [reflexivity|]. exfalso. apply n. rewrite Rabs_R0. apply Rabs_pos_lt. assumption. }
    change (@div R R_ops) with Rdiv. change (@add R R_ops) with Rplus. change (@mul R R_ops) with Rmult. change (@one R R_ops) with 1.
    change (@tpow R R_pops) with R_pow. change (@two R R_pops) with 2. change (@half R R_pops) with (1/2).
    rewrite R_pow_2. destruct (sqrt1_pos (f / g)) as [Hp Hs].
    rewrite R_pow_half by nra. set (t1 := sqrt _) in *.
    eexists _, _, _. split; [reflexivity|]. assert (Ht : t1 <> 0) by lra.
    assert (HF : t1 * t1 * (g * g) = f * f + g * g) by (rewrite Hs; field; assumption).
    split; [|split; [|split; [|split]]].
    + apply (Rmult_eq_reg_r (t1 * t1 * (g * g))); [|repeat apply Rmult_integral_contrapositive_currified; assumption].
      transitivity (f * f + g * g); [field; auto|rewrite HF; ring].
    + field. auto.
    + apply (Rmult_eq_reg_r (t1 * g)); [|repeat apply Rmult_integral_contrapositive_currified; assumption].
      transitivity (f * f + g * g); [rewrite <- HF; ring|field; auto].
    + unfold Rdiv. repeat apply Rmult_integral_contrapositive_currified; try apply Rinv_neq_0_compat; assumption.
    + intros ->. contradiction.
Qed.

(** In all cases an orthogonal rotation that annihilates [g]. *)
Lemma mrot_spec (f g : R) : exists c s r, mrot f g = (c, s, r) /\ c * c + s * s = 1 /\ c * g = s * f /\ r = c * f + s * g.
Proof.
  destruct (Req_dec f 0) as [->|Hf].
  - rewrite mrot_zero. exists 0, 1, g. split; [reflexivity|]. repeat split; ring.
  - destruct (mrot_nonzero f g Hf) as (c & s & r & E & H1 & H2 & H3 & _). eauto 8.
Qed.

(** ** One rotation of a sweep *)
Lemma set_rotation n k (q : matrix R) f c s : (k + 1 < n)%nat -> is_mat q n n f ->
  (forall i j, (i < n)%nat -> (j < n)%nat -> ~ ((i = k \/ i = k + 1) /\ (j = k \/ j = k + 1))%nat -> f i j = delta i j) ->
  exists q1 q2 q3 q4, mset q k k c = Ret q1 /\ mset q1 k (k + 1) s = Ret q2 /\ mset q2 (k + 1) k (- s)%sc = Ret q3 /\ mset q3 (k + 1) (k + 1) c = Ret q4 /\
    is_mat q4 n n (gvf k (k + 1) c s).
Proof.
  intros Hk Hq Hf.
  destruct (mset_spec q n n _ k k c Hq) as (q1 & E1 & H1); [lia|lia|].
  destruct (mset_spec q1 n n _ k (k + 1) s H1) as (q2 & E2 & H2); [lia|lia|].
  destruct (mset_spec q2 n n _ (k + 1) k (- s)%sc H2) as (q3 & E3 & H3); [lia|lia|].
  destruct (mset_spec q3 n n _ (k + 1) (k + 1) c H3) as (q4 & E4 & H4); [lia|lia|].
  exists q1, q2, q3, q4. repeat (split; [assumption|]). eapply is_mat_ext; [|exact H4].
  intros i j Hi Hj. cbv beta. unfold fupd, gvf. leb; try reflexivity.
  all: rewrite Hf by lia; unfold delta; leb; reflexivity.
Qed.

Lemma msweep_step_ok n k u b v fu fb fv : (k + 1 < n)%nat -> is_mat u n n fu -> is_mat b n n fb -> is_mat v n n fv ->
  exists c s c' s' r r', mrot (fb k k) (fb k (k + 1)%nat) = (c, s, r) /\
    let G := gvf k (k + 1) c s in
    let b1 := mulf n fb (trf G) in
    mrot (b1 k k) (b1 (k + 1)%nat k) = (c', s', r') /\
    let G' := gvf k (k + 1) c' s' in
    orthogonal n G /\ orthogonal n G' /\
    exists u' b' v', msweep_step n k (u, b, v) = Ret (u', b', v') /\
      is_mat u' n n (mulf n G' fu) /\ is_mat b' n n (mulf n G' b1) /\ is_mat v' n n (mulf n fv (trf G)).
Proof.
  intros Hk Hu Hb Hv.
  destruct (mrot_spec (fb k k) (fb k (k + 1)%nat)) as (c & s & r & Er & Hcs & _ & _).
  destruct (mrot_spec (mulf n fb (trf (gvf k (k + 1) c s)) k k) (mulf n fb (trf (gvf k (k + 1) c s)) (k + 1)%nat k)) as (c' & s' & r' & Er' & Hcs' & _ & _).
  exists c, s, c', s', r, r'. split; [exact Er|]. intros G b1. split; [exact Er'|]. intros G'.
  split; [apply (gvf_orthogonal R_RingLaws); auto; lia|]. split; [apply (gvf_orthogonal R_RingLaws); auto; lia|].
  unfold msweep_step. destruct (mone_spec (T:=R) n) as (q0 & E0 & H0). rewrite E0. cbn [bind].
  rewrite !(is_mat_get b n n fb _ _ Hb) by lia. cbn [bind]. rewrite Er.
  destruct (set_rotation n k q0 _ c s Hk H0) as (q1 & q2 & q3 & q4 & E1 & E2 & E3 & E4 & H4); [reflexivity|].
  rewrite E1; cbn [bind]; rewrite E2; cbn [bind]; rewrite E3; cbn [bind]; rewrite E4; cbn [bind].
  destruct (mtranspose_good q4 n n (gvf k (k + 1) c s)) as (qt & Eqt & Hqt); [lia|lia|auto|exact H4|]. rewrite Eqt. cbn [bind].
  destruct (mmul_spec b qt n n n _ _ Hb Hqt) as (b1m & Eb1 & Hb1). rewrite Eb1. cbn [bind].
  destruct (mmul_spec v qt n n n _ _ Hv Hqt) as (v1m & Ev1 & Hv1). rewrite Ev1. cbn [bind].
  rewrite !(is_mat_get b1m n n _ _ _ Hb1) by lia. cbn [bind].
  change (fun i j : nat => gvf k (k + 1) c s j i) with (trf (gvf k (k + 1) c s)). rewrite Er'.
  destruct (set_rotation n k q4 _ c' s' Hk H4) as (q5 & q6 & q7 & q8 & E5 & E6 & E7 & E8 & H8).
  { intros i j Hi Hj Hn. unfold gvf. leb; try reflexivity; try (exfalso; lia); unfold delta; leb; reflexivity. }
  rewrite E5; cbn [bind]; rewrite E6; cbn [bind]; rewrite E7; cbn [bind]; rewrite E8; cbn [bind].
  destruct (mmul_spec q8 b1m n n n _ _ H8 Hb1) as (b2 & Eb2 & Hb2). rewrite Eb2. cbn [bind].
  destruct (mmul_spec q8 u n n n _ _ H8 Hu) as (u2 & Eu2 & Hu2). rewrite Eu2. cbn [bind].
  exists u2, b2, v1m. split; [reflexivity|]. split; [exact Hu2|]. split; [exact Hb2|exact Hv1].
Qed.

(** u^T b v^T stays equal to C. *)
Definition sw_inv (n : nat) (C fu fb fv : nat -> nat -> R) : Prop :=
  orthogonal n fu /\ orthogonal n fv /\ feq n n (mulf n (mulf n (trf fu) fb) (trf fv)) C.

Lemma sw_inv_step n C fu fb fv G G' : sw_inv n C fu fb fv -> orthogonal n G -> orthogonal n G' ->
  sw_inv n C (mulf n G' fu) (mulf n G' (mulf n fb (trf G))) (mulf n fv (trf G)).
Proof.
  intros (Ou & Ov & HC) OG OG'. split; [apply (orthogonal_mul R_RingLaws); assumption|].
  split; [apply (orthogonal_mul R_RingLaws); [assumption|apply orthogonal_trf; assumption]|].
  eapply feq_trans; [|exact HC].
  assert (H1 : feq n n (mulf n (trf (mulf n G' fu)) (mulf n G' (mulf n fb (trf G)))) (mulf n (trf fu) (mulf n fb (trf G)))).
  { eapply feq_trans; [apply feq_mulf; [apply (feq_trf_mulf R_RingLaws)|apply feq_refl]|].
    eapply feq_trans; [apply (feq_assoc R_RingLaws)|]. apply feq_mulf; [apply feq_refl|].
    eapply feq_trans; [apply feq_sym, (feq_assoc R_RingLaws)|].
    eapply feq_trans; [apply feq_mulf; [apply OG'|apply feq_refl]|]. apply (feq_id_l R_RingLaws). }
  eapply feq_trans; [apply feq_mulf; [exact H1|apply (feq_trf_mulf R_RingLaws)]|].
  change (trf (trf G)) with G.
  eapply feq_trans; [apply feq_mulf; [apply feq_sym, (feq_assoc R_RingLaws)|apply feq_refl]|].
  eapply feq_trans; [apply (feq_assoc R_RingLaws)|].
  eapply feq_trans; [apply feq_mulf; [apply feq_refl|apply feq_sym, (feq_assoc R_RingLaws)]|].
  eapply feq_trans; [apply feq_mulf; [apply feq_refl|apply feq_mulf; [apply OG|apply feq_refl]]|].
  apply feq_mulf; [apply feq_refl|apply (feq_id_l R_RingLaws)].
Qed.

Lemma msweep_ok n C u b v fu fb fv : (1 <= n)%nat -> is_mat u n n fu -> is_mat b n n fb -> is_mat v n n fv -> sw_inv n C fu fb fv ->
  exists u' b' v' fu' fb' fv', msweep (u, b, v) = Ret (u', b', v') /\ is_mat u' n n fu' /\ is_mat b' n n fb' /\ is_mat v' n n fv' /\ sw_inv n C fu' fb' fv'.
Proof.
  intros Hn Hu Hb Hv Hinv. unfold msweep. cbn [fst snd]. rewrite (is_mat_cols _ _ _ _ Hb). rewrite usub_ok by lia. cbn [bind].
  destruct (for_loop_ind (fun _ st => let '(u, b, v) := st in exists fu fb fv, is_mat u n n fu /\ is_mat b n n fb /\ is_mat v n n fv /\ sw_inv n C fu fb fv)
    (msweep_step n) 0 (n - 1) (u, b, v)) as ([[u' b'] v'] & E & fu' & fb' & fv' & H1 & H2 & H3 & H4).
  - lia.
  - eauto 8.
  - intros k [[u1 b1] v1] Hk (f1 & f2 & f3 & F1 & F2 & F3 & F4).
    destruct (msweep_step_ok n k u1 b1 v1 f1 f2 f3) as (c & s & c' & s' & r & r' & _ & _ & OG & OG' & u2 & b2 & v2 & E2 & G1 & G2 & G3); auto; [lia|].
    exists (u2, b2, v2). split; [exact E2|]. eexists _, _, _. split; [exact G1|]. split; [exact G2|]. split; [exact G3|].
    apply sw_inv_step; assumption.
  - exists u', b', v', fu', fb', fv'. auto.
Qed.

(** ** The final clean-up *)
Definition sgn1 (x : R) : R := if Rlt_dec x 0 then -1 else 1.
Lemma sgn1_sq x : sgn1 x * sgn1 x = 1.
Proof. unfold sgn1. destruct (Rlt_dec x 0); ring. Qed.
Lemma sgn1_abs x : sgn1 x * x = Rabs x.
Proof. unfold sgn1. destruct (Rlt_dec x 0); [rewrite Rabs_left by assumption|rewrite Rabs_right by lra]; ring. Qed.

Lemma sv_signs_ok n (u b : matrix R) fu fb : is_mat u n n fu -> is_mat b n n fb ->
  exists u' b', sv_signs u b = Ret (u', b') /\ is_mat u' n n (fun i j => sgn1 (fb j j) * fu i j) /\
    is_mat b' n n (fun i j => if (i =? j)%nat then Rabs (fb i i) else fb i j).
Proof.
  intros Hu Hb. unfold sv_signs. rewrite (is_mat_rows _ _ _ _ Hb).
  destruct (for_loop_ind (fun l st => is_mat (fst st) n n (fun i j => if (j <? l)%nat then sgn1 (fb j j) * fu i j else fu i j) /\
      is_mat (snd st) n n (fun i j => if (i =? j)%nat && (i <? l)%nat then Rabs (fb i i) else fb i j))
    (fun l ub => let '(u, b) := ub in
      let! x := mget b l l in
      if ltb x zero then
        let! b := mset b l l (- x)%sc in
        let! col := mget_column u l in
        let! u := mset_column u (vmul_scalar col (neg one)) l in
        Ret (u, b)
      else Ret (u, b)) 0 n (u, b)) as ([u' b'] & E & H1 & H2).
  - lia.
  - split.
    + eapply is_mat_ext; [|exact Hu]. intros; reflexivity.
    + eapply is_mat_ext; [|exact Hb]. intros. cbv beta. rewrite andb_false_r. reflexivity.
  - intros l [u1 b1] Hl (F1 & F2). cbn [fst snd] in F1, F2.
    rewrite (is_mat_get b1 n n _ l l F2) by lia. cbn [bind]. rewrite Nat.eqb_refl, Nat.ltb_irrefl. cbn [andb].
    change (ltb (fb l l) zero) with (R_ltb (fb l l) 0). unfold R_ltb. destruct (Rlt_dec (fb l l) 0) as [Hneg|Hpos].
    + destruct (mset_spec b1 n n _ l l (- fb l l)%sc F2) as (b2 & Eb2 & Hb2); [lia|lia|]. rewrite Eb2. cbn [bind].
      destruct (mget_column_spec u1 n n _ l F1) as (cl & Ecl & Hcl); [lia|]. rewrite Ecl. cbn [bind].
      assert (Hcl2 : is_col (vmul_scalar cl (neg one)) n (fun i => - (if (l <? l)%nat then sgn1 (fb l l) * fu i l else fu i l))).
      { eapply is_mat_ext; [|exact (mapply_spec (fun x => mul x (neg one)) cl n 1 _ Hcl)]. intros. simpl. ring. }
      destruct (mset_column_spec u1 n n _ (vmul_scalar cl (neg one)) _ l F1 Hcl2) as (u2 & Eu2 & Hu2); [lia|].
      rewrite Eu2. cbn [bind]. exists (u2, b2). split; [reflexivity|]. cbn [fst snd]. split.
      * eapply is_mat_ext; [|exact Hu2]. intros i j Hi Hj. cbv beta. leb; try reflexivity. subst j. unfold sgn1. destruct (Rlt_dec (fb l l) 0); [|contradiction]. simpl. ring.
      * eapply is_mat_ext; [|exact Hb2]. intros i j Hi Hj. cbv beta. unfold fupd. leb; try reflexivity. subst i. rewrite Rabs_left by assumption. reflexivity.
    + exists (u1, b1). split; [reflexivity|]. cbn [fst snd]. split.
      * eapply is_mat_ext; [|exact F1]. intros i j Hi Hj. cbv beta. leb; try reflexivity. assert (j = l) by lia. subst j. unfold sgn1. destruct (Rlt_dec (fb l l) 0); [contradiction|]. ring.
      * eapply is_mat_ext; [|exact F2]. intros i j Hi Hj. cbv beta. leb; try reflexivity. assert (i = l) by lia. subst. rewrite Rabs_right by lra. reflexivity.
  - cbn [fst snd] in *. exists u', b'. split; [exact E|]. split.
    + eapply is_mat_ext; [|exact H1]. intros i j Hi Hj. cbv beta. leb. reflexivity.
    + eapply is_mat_ext; [|exact H2]. intros i j Hi Hj. cbv beta. leb; reflexivity.
Qed.

Lemma sv_clean_ok n (b : matrix R) fb : is_mat b n n fb ->
  exists b', sv_clean b = Ret b' /\ is_mat b' n n (fun i j => if (i =? j)%nat then fb i j else 0).
Proof.
  intros Hb. unfold sv_clean. rewrite (is_mat_rows _ _ _ _ Hb).
  destruct (for_loop_ind (fun l b => is_mat b n n (fun i j => if negb (i =? j)%nat && (j <? l)%nat then 0 else fb i j))
    (fun l b => for_loop 0 (rows b) (fun k b => if negb (k =? l)%nat then mset b k l zero else Ret b) b) 0 n b) as (b' & E & H').
  - lia.
  - eapply is_mat_ext; [|exact Hb]. intros. cbv beta. rewrite andb_false_r. reflexivity.
  - intros l b1 Hl H1. rewrite (is_mat_rows _ _ _ _ H1).
    destruct (for_loop_ind (fun k b => is_mat b n n (fun i j => if negb (i =? j)%nat && ((j <? l)%nat || (j =? l)%nat && (i <? k)%nat) then 0 else fb i j))
      (fun k b => if negb (k =? l)%nat then mset b k l zero else Ret b) 0 n b1) as (b2 & E2 & H2).
    + lia.
    + eapply is_mat_ext; [|exact H1]. intros. cbv beta. rewrite andb_false_r, orb_false_r. reflexivity.
    + intros k b3 Hk H3. destruct (Nat.eqb_spec k l) as [->|Hne]; cbn [negb].
      * exists b3. split; [reflexivity|]. eapply is_mat_ext; [|exact H3]. intros i j Hi Hj. cbv beta. leb; cbn [orb andb]; try reflexivity; exfalso; lia.
      * destruct (mset_spec b3 n n _ k l zero H3) as (b4 & E4 & H4); [lia|lia|]. exists b4. split; [exact E4|].
        eapply is_mat_ext; [|exact H4]. intros i j Hi Hj. cbv beta. unfold fupd. leb; cbn [orb andb]; try reflexivity.
    + exists b2. split; [exact E2|]. eapply is_mat_ext; [|exact H2]. intros i j Hi Hj. cbv beta. leb; cbn [orb andb]; reflexivity.
  - exists b'. split; [exact E|]. eapply is_mat_ext; [|exact H']. intros i j Hi Hj. cbv beta. leb; reflexivity.
Qed.

(** ** Frobenius norm *)
Lemma frob2_trace n f : frob2 n n f = sumn n (fun j => mulf n (trf f) f j j).
Proof. unfold frob2. rewrite sumn_R_swap. reflexivity. Qed.
Lemma frob2_feq n f g : feq n n f g -> frob2 n n f = frob2 n n g.
Proof. intros H. apply sumn_ext. intros i Hi. apply sumn_ext. intros j Hj. rewrite (H i j Hi Hj). reflexivity. Qed.
Lemma trace_feq n (f g : nat -> nat -> R) : feq n n f g -> sumn n (fun j => f j j) = sumn n (fun j => g j j).
Proof. intros H. apply sumn_ext. intros i Hi. apply H; assumption. Qed.

Lemma frob2_left n q f : orthogonal n q -> frob2 n n (mulf n q f) = frob2 n n f.
Proof.
  intros Ho. rewrite !frob2_trace. apply (trace_feq n (mulf n (trf (mulf n q f)) (mulf n q f)) (mulf n (trf f) f)).
  eapply feq_trans; [apply feq_mulf; [apply (feq_trf_mulf R_RingLaws)|apply feq_refl]|].
  eapply feq_trans; [apply (feq_assoc R_RingLaws)|]. apply feq_mulf; [apply feq_refl|].
  eapply feq_trans; [apply feq_sym, (feq_assoc R_RingLaws)|].
  eapply feq_trans; [apply feq_mulf; [apply Ho|apply feq_refl]|]. apply (feq_id_l R_RingLaws).
Qed.
Lemma frob2_trf n f : frob2 n n (trf f) = frob2 n n f.
Proof. unfold frob2, trf. apply sumn_R_swap. Qed.
Lemma frob2_right n q f : orthogonal n q -> frob2 n n (mulf n f (trf q)) = frob2 n n f.
Proof.
  intros Ho. rewrite <- frob2_trf. rewrite (frob2_feq n _ (mulf n q (trf f))).
  - rewrite frob2_left by assumption. apply frob2_trf.
  - eapply feq_trans; [apply (feq_trf_mulf R_RingLaws)|]. apply feq_refl.
Qed.

(** Diagonal signs. *)
Lemma orthogonal_signs n u (s : nat -> R) : (forall j, s j * s j = 1) -> orthogonal n u -> orthogonal n (fun i j => s j * u i j).
Proof.
  intros Hs [H1 H2]. split; intros r c Hr Hc.
  - rewrite <- (H1 r c Hr Hc). unfold mulf, trf. apply sumn_ext. intros l Hl. simpl. transitivity (s l * s l * (u r l * u c l)); [ring|rewrite Hs; ring].
  - transitivity (s r * s c * mulf n (trf u) u r c).
    + unfold mulf, trf. rewrite <- sumn_R_mul_l. apply sumn_ext. intros l Hl. simpl. ring.
    + rewrite (H2 r c Hr Hc). unfold delta. destruct (Nat.eqb_spec r c) as [->|]; simpl; [rewrite Hs; ring|ring].
Qed.

(** The whole iteration, carrying along any further invariant [P] of the sweeps. *)
Definition sweep_inv (n : nat) (P : nat -> (nat -> nat -> R) -> Prop) : Prop :=
  forall k u b v fu fb fv u' b' v', is_mat u n n fu -> is_mat b n n fb -> is_mat v n n fv -> P k fb -> msweep (u, b, v) = Ret (u', b', v') ->
    exists fb', is_mat b' n n fb' /\ P (S k) fb'.

Lemma sweeps_ok n P C N u b v fu fb fv : (1 <= n)%nat -> sweep_inv n P -> (forall k f g, feq n n f g -> P k f -> P k g) ->
  is_mat u n n fu -> is_mat b n n fb -> is_mat v n n fv -> sw_inv n C fu fb fv -> P 0%nat fb ->
  exists u' b' v' fu' fb' fv', for_loop 0 N (fun _ st => msweep st) (u, b, v) = Ret (u', b', v') /\
    is_mat u' n n fu' /\ is_mat b' n n fb' /\ is_mat v' n n fv' /\ sw_inv n C fu' fb' fv' /\ P N fb'.
Proof.
  intros Hn HP Hext Hu Hb Hv Hinv H0.
  destruct (for_loop_ind (fun k st => let '(u, b, v) := st in exists fu fb fv, is_mat u n n fu /\ is_mat b n n fb /\ is_mat v n n fv /\ sw_inv n C fu fb fv /\ P k fb)
    (fun _ st => msweep st) 0 N (u, b, v)) as ([[u' b'] v'] & E & fu' & fb' & fv' & H1 & H2 & H3 & H4).
  - lia.
  - eauto 9.
  - intros k [[u1 b1] v1] Hk (f1 & f2 & f3 & F1 & F2 & F3 & F4 & F5).
    destruct (msweep_ok n C u1 b1 v1 f1 f2 f3) as (u2 & b2 & v2 & g1 & g2 & g3 & E2 & G1 & G2 & G3 & G4); auto.
    exists (u2, b2, v2). split; [exact E2|]. destruct (HP k u1 b1 v1 f1 f2 f3 u2 b2 v2 F1 F2 F3 F5 E2) as (g2' & G2' & G5).
    exists g1, g2, g3. repeat (split; [assumption|]). apply (Hext (S k) g2' g2); [|exact G5].
    intros i j Hi Hj. exact (is_mat_entry_unique _ _ _ _ _ i j G2' G2 Hi Hj).
  - exists u', b', v', fu', fb', fv'. auto.
Qed.

(** From the bidiagonal form on, nothing can panic. *)
Lemma dec_sv_tail (P : nat -> (nat -> nat -> R) -> Prop) (A : matrix R) n a U0 B0 V0 b0 :
  is_mat A n n a -> householder_bidiag A = Ret (U0, B0, V0) -> is_mat B0 n n b0 ->
  sweep_inv n P -> (forall k f g, feq n n f g -> P k f -> P k g) -> P 0%nat b0 ->
  (1 <= n)%nat /\ exists U S V fu fb fd fv, dec_sv A = Ret (U, S, V) /\ is_mat U n n fu /\ is_mat V n n fv /\
    is_mat S n n (fun i j => if (i =? j)%nat then fd i j else 0) /\ (forall l, 0 <= fd l l) /\
    orthogonal n fu /\ orthogonal n fv /\ feq n n (mulf n (mulf n fu fd) (trf fv)) a /\
    P (500 * n * n)%nat fb /\ (forall i j, fd i j = sgn1 (fb i i) * fb i j).
Proof.
  intros HA E HB HP Hext H0. destruct (bidiag_square A n a U0 B0 V0 HA E) as (Hn & f0 & b0' & v0 & HU & HB' & HV & Ou & Ov & _ & Hf & _).
  assert (Hbb : feq n n b0' b0) by (intros i j Hi Hj; exact (is_mat_entry_unique _ _ _ _ _ i j HB' HB Hi Hj)).
  assert (H0' : P 0%nat b0') by (apply (Hext 0%nat b0); [apply feq_sym; exact Hbb|exact H0]).
  clear b0 HB Hbb H0. rename b0' into b0, HB' into HB, H0' into H0.
  split; [exact Hn|]. unfold dec_sv. rewrite E. cbn [bind]. rewrite (is_mat_cols _ _ _ _ HB).
  destruct (mone_spec (T:=R) n) as (I & EI & HI). rewrite EI. cbn [bind].
  destruct (sweeps_ok n P (mulf n b0 (trf v0)) (500 * n * n) I B0 V0 delta b0 v0 Hn HP Hext HI HB HV) as (u1 & b1 & v1 & fu1 & fb1 & fv1 & E1 & H1 & H2 & H3 & (O1 & O2 & HC) & HPN).
  { split; [apply (orthogonal_delta R_RingLaws)|]. split; [exact Ov|]. apply feq_mulf; [|apply feq_refl].
    eapply feq_trans; [|apply (feq_id_l R_RingLaws)]. apply feq_mulf; [|apply feq_refl]. intros r c _ _. unfold trf, delta. rewrite Nat.eqb_sym. reflexivity. }
  { exact H0. }
  rewrite E1. cbn [bind].
  destruct (mtranspose_good u1 n n fu1) as (ut & Eut & Hut); [lia|lia|auto|exact H1|]. rewrite Eut. cbn [bind].
  destruct (mmul_spec U0 ut n n n _ _ HU Hut) as (U1 & EU1 & HU1). rewrite EU1. cbn [bind].
  destruct (sv_signs_ok n U1 b1 _ fb1 HU1 H2) as (U2 & b2 & E2 & HU2 & Hb2). rewrite E2. cbn [bind].
  destruct (sv_clean_ok n b2 _ Hb2) as (b3 & E3 & Hb3). rewrite E3. cbn [bind].
  exists U2, b3, v1, (fun i j => sgn1 (fb1 j j) * mulf n f0 (trf fu1) i j), fb1, (fun i j => sgn1 (fb1 i i) * fb1 i j), fv1.
  split; [reflexivity|]. split; [exact HU2|]. split; [exact H3|].
  split. { eapply is_mat_ext; [|exact Hb3]. intros i j Hi Hj. cbv beta. destruct (Nat.eqb_spec i j) as [->|]; [symmetry; apply sgn1_abs|reflexivity]. }
  split. { intros l. rewrite sgn1_abs. apply Rabs_pos. }
  assert (OU : orthogonal n (mulf n f0 (trf fu1))) by (apply (orthogonal_mul R_RingLaws); [exact Ou|apply orthogonal_trf; exact O1]).
  split. { apply orthogonal_signs; [intros; apply sgn1_sq|exact OU]. }
  split; [exact O2|]. split; [|split; [exact HPN|reflexivity]].
  eapply feq_trans; [|exact Hf].
  eapply feq_trans; [apply feq_mulf; [|apply feq_refl]|].
  - instantiate (1 := mulf n (mulf n f0 (trf fu1)) fb1). intros r c Hr Hc. unfold mulf at 1 3. apply sumn_ext. intros l Hl. simpl.
    transitivity (sgn1 (fb1 l l) * sgn1 (fb1 l l) * (mulf n f0 (trf fu1) r l * fb1 l c)); [ring|rewrite sgn1_sq; ring].
  - eapply feq_trans; [apply feq_mulf; [apply (feq_assoc R_RingLaws)|apply feq_refl]|].
    eapply feq_trans; [apply (feq_assoc R_RingLaws)|].
    eapply feq_trans; [apply feq_mulf; [apply feq_refl|exact HC]|]. apply feq_sym, (feq_assoc R_RingLaws).
Qed.

Lemma dec_sv_bidiag (A : matrix R) r : dec_sv A = Ret r -> exists U0 B0 V0, householder_bidiag A = Ret (U0, B0, V0).
Proof. unfold dec_sv. destruct (householder_bidiag A) as [[[U0 B0] V0]|]; [|discriminate]. eauto. Qed.

(** The dropped part is exactly the off-diagonal of the last iterate. *)
Lemma dec_sv_gen (P : nat -> (nat -> nat -> R) -> Prop) (A : matrix R) n a U0 B0 V0 b0 U S V :
  is_mat A n n a -> householder_bidiag A = Ret (U0, B0, V0) -> is_mat B0 n n b0 ->
  sweep_inv n P -> (forall k f g, feq n n f g -> P k f -> P k g) -> P 0%nat b0 -> dec_sv A = Ret (U, S, V) ->
  exists fu fs fv fb, is_mat U n n fu /\ is_mat S n n fs /\ is_mat V n n fv /\ orthogonal n fu /\ orthogonal n fv /\
    diagonal n n fs /\ (forall l, (l < n)%nat -> 0 <= fs l l) /\
    (forall l, (l < n)%nat -> mulf n (mulf n (trf fu) a) fv l l = fs l l) /\
    frob2 n n a = sumn n (fun l => fs l l * fs l l) + frob2 n n (fun i j => a i j - mulf n (mulf n fu fs) (trf fv) i j) /\
    P (500 * n * n)%nat fb /\
    frob2 n n (fun i j => a i j - mulf n (mulf n fu fs) (trf fv) i j) = frob2 n n (fun i j => if (i =? j)%nat then 0 else fb i j).
Proof.
  intros HA EB HB HP Hext H0 E.
  destruct (dec_sv_tail P A n a U0 B0 V0 b0 HA EB HB HP Hext H0) as (Hn & U' & S' & V' & fu & fb & fd & fv & E' & HU & HV & HS & Hpos & OU & OV & Hf & HPN & Hfd).
  rewrite E in E'. injection E' as <- <- <-.
  set (fs := fun i j => if (i =? j)%nat then fd i j else 0) in *.
  exists fu, fs, fv, fb. split; [exact HU|]. split; [exact HS|]. split; [exact HV|]. split; [exact OU|]. split; [exact OV|].
  split. { intros i j Hi Hj Hne. unfold fs. destruct (Nat.eqb_spec i j); [lia|reflexivity]. }
  split. { intros l Hl. unfold fs. rewrite Nat.eqb_refl. apply Hpos. }
  assert (HD : feq n n (mulf n (mulf n (trf fu) a) fv) fd).
  { eapply feq_trans; [apply feq_mulf; [apply feq_mulf; [apply feq_refl|apply feq_sym, Hf]|apply feq_refl]|].
    eapply feq_trans; [apply feq_mulf; [apply feq_sym, (feq_assoc R_RingLaws)|apply feq_refl]|].
    eapply feq_trans; [apply (feq_assoc R_RingLaws)|].
    eapply feq_trans; [apply feq_mulf; [apply feq_sym, (feq_assoc R_RingLaws)|apply OV]|].
    eapply feq_trans; [apply (feq_id_r R_RingLaws)|].
    eapply feq_trans; [apply feq_mulf; [apply OU|apply feq_refl]|]. apply (feq_id_l R_RingLaws). }
  split. { intros l Hl. rewrite (HD l l Hl Hl). unfold fs. rewrite Nat.eqb_refl. reflexivity. }
  set (fe := fun i j => fd i j + -1 * fs i j).
  assert (HE : feq n n (fun i j => a i j - mulf n (mulf n fu fs) (trf fv) i j) (mulf n (mulf n fu fe) (trf fv))).
  { intros i j Hi Hj. rewrite <- (Hf i j Hi Hj).
    transitivity (mulf n (mulf n fu fd) (trf fv) i j + -1 * mulf n (mulf n fu fs) (trf fv) i j); [ring|].
    transitivity (sumn n (fun l => mulf n fu fd i l * trf fv l j) + -1 * sumn n (fun l => mulf n fu fs i l * trf fv l j)); [reflexivity|].
    rewrite <- sumn_R_mul_l, <- sumn_R_add. unfold mulf at 3. apply sumn_ext. intros l Hl.
    assert (El : mulf n fu fe i l = mulf n fu fd i l + -1 * mulf n fu fs i l).
    { unfold mulf. rewrite <- sumn_R_mul_l, <- sumn_R_add. apply sumn_ext. intros k Hk. unfold fe. simpl. ring. }
    rewrite El. simpl. ring. }
  rewrite (frob2_feq n _ _ HE). rewrite (frob2_feq n a (mulf n (mulf n fu fd) (trf fv))) by (apply feq_sym; exact Hf).
  rewrite !frob2_right, !frob2_left by assumption.
  split; [|split; [exact HPN|]].
  - unfold frob2. rewrite <- sumn_R_add. apply sumn_ext. intros i Hi.
    rewrite (sumn_ext n _ (fun j => fs i j * fs i j + fe i j * fe i j)).
    2:{ intros j Hj. unfold fe, fs. destruct (Nat.eqb_spec i j); ring. }
    rewrite sumn_R_add. f_equal. rewrite (sumn_single R_RingLaws n i); [reflexivity|assumption|].
    intros j Hj Hne. unfold fs. destruct (Nat.eqb_spec i j); [lia|]. simpl. ring.
  - apply sumn_ext. intros i Hi. apply sumn_ext. intros j Hj. unfold fe, fs. rewrite Hfd. destruct (Nat.eqb_spec i j); [ring|].
    transitivity (sgn1 (fb i i) * sgn1 (fb i i) * (fb i j * fb i j)); [ring|rewrite sgn1_sq; ring].
Qed.

Lemma sweep_inv_true n : (1 <= n)%nat -> sweep_inv n (fun _ _ => True).
Proof.
  intros Hn k u b v fu fb fv u' b' v' Hu Hb Hv _ E.
  unfold msweep in E. cbn [fst snd] in E. rewrite (is_mat_cols _ _ _ _ Hb) in E. rewrite usub_ok in E by lia. cbn [bind] in E.
  assert (HL := for_loop_inv (fun _ st => let '(u, b, v) := st in exists fu fb fv, is_mat u n n fu /\ is_mat b n n fb /\ is_mat v n n fv) _ _ _ _ _ E ltac:(lia)).
  cbv beta iota in HL. destruct HL as (f1 & f2 & f3 & _ & H2 & _).
  - exists fu, fb, fv. auto.
  - intros i [[u1 b1] v1] [[u2 b2] v2] Hi (f1 & f2 & f3 & F1 & F2 & F3) Es.
    destruct (msweep_step_ok n i u1 b1 v1 f1 f2 f3) as (c & s & c' & s' & r & r' & _ & _ & _ & _ & u3 & b3 & v3 & E3 & G1 & G2 & G3); auto; [lia|].
    rewrite E3 in Es. injection Es as <- <- <-. eexists _, _, _. eauto.
  - eauto.
Qed.

Lemma dec_sv_spec (A : matrix R) n a U S V : is_mat A n n a -> dec_sv A = Ret (U, S, V) ->
  exists fu fs fv, is_mat U n n fu /\ is_mat S n n fs /\ is_mat V n n fv /\ orthogonal n fu /\ orthogonal n fv /\
    diagonal n n fs /\ (forall l, (l < n)%nat -> 0 <= fs l l) /\
    (forall l, (l < n)%nat -> mulf n (mulf n (trf fu) a) fv l l = fs l l) /\
    frob2 n n a = sumn n (fun l => fs l l * fs l l) + frob2 n n (fun i j => a i j - mulf n (mulf n fu fs) (trf fv) i j).
Proof.
  intros HA E. destruct (dec_sv_bidiag A _ E) as (U0 & B0 & V0 & EB).
  destruct (bidiag_square A n a U0 B0 V0 HA EB) as (Hn & f0 & b0 & v0 & _ & HB & _).
  destruct (dec_sv_gen (fun _ _ => True) A n a U0 B0 V0 b0 U S V HA EB HB (sweep_inv_true n Hn) ltac:(auto) I E)
    as (fu & fs & fv & fb & H1 & H2 & H3 & H4 & H5 & H6 & H7 & H8 & H9 & _).
  exists fu, fs, fv. auto 12.
Qed.

Lemma dec_sv_returns (A : matrix R) n a : is_mat A n n a -> (1 <= n)%nat ->
  ((exists r, dec_sv A = Ret r) <-> (exists r, householder_bidiag A = Ret r)).
Proof.
  intros HA Hn. split.
  - intros (r & E). destruct (dec_sv_bidiag A _ E) as (U0 & B0 & V0 & EB). eauto.
  - intros ([[U0 B0] V0] & EB). destruct (bidiag_square A n a U0 B0 V0 HA EB) as (_ & f0 & b0 & v0 & _ & HB & _).
    destruct (dec_sv_tail (fun _ _ => True) A n a U0 B0 V0 b0 HA EB HB (sweep_inv_true n Hn) ltac:(auto) I) as (_ & U & S & V & fu & fb & fd & fv & E & _). eauto.
Qed.

Lemma frob2_nonneg m n f : 0 <= frob2 m n f.
Proof. apply sumn_R_nonneg. intros i Hi. apply sumn_R_nonneg. intros j Hj. nra. Qed.
Lemma frob2_zero m n f : frob2 m n f = 0 <-> (forall i j, (i < m)%nat -> (j < n)%nat -> f i j = 0).
Proof.
  split.
  - intros H i j Hi Hj. unfold frob2 in H.
    assert (Hp : forall i, (i < m)%nat -> 0 <= sumn n (fun j => f i j * f i j)) by (intros; apply sumn_R_nonneg; intros; nra).
    pose proof (sumn_R_zero m _ Hp H i Hi) as Hz.
    pose proof (sumn_R_zero n (fun j => f i j * f i j) ltac:(intros; nra) Hz j Hj) as Hz2. cbv beta in Hz2. nra.
  - intros H. apply (sumn_zero_ext R_RingLaws). intros i Hi. apply (sumn_zero_ext R_RingLaws). intros j Hj. rewrite H by assumption. simpl. ring.
Qed.

(** Non-square matrices. *)
Lemma dec_sv_rect (A : matrix R) m n a : is_mat A m n a -> m <> n -> dec_sv A = Panic.
Proof.
  intros HA Hne. unfold dec_sv. destruct (householder_bidiag A) as [[[U B] V]|] eqn:E; [|reflexivity]. cbn [bind].
  destruct (bidiag_spec A m n a U B V HA E) as (Hn & fu & fa & fv & HU & HV & _ & HB).
  rewrite (is_mat_cols _ _ _ _ HB). destruct (mone_spec (T:=R) n) as (I & EI & HI). rewrite EI. cbn [bind].
  destruct (Nat.eq_dec n 1) as [->|Hn1].
  - replace (for_loop 0 (500 * 1 * 1) (fun _ st => msweep st) (I, B, V)) with (Ret (I, B, V)).
    2:{ symmetry. assert (Hone : forall N, for_loop 0 N (fun _ st => msweep st) (I, B, V) = Ret (I, B, V)).
        { intros N. destruct (for_loop_ind (fun _ st => st = (I, B, V)) (fun _ st => msweep st) 0 N (I, B, V)) as (s' & Es & ->); [lia|reflexivity| |exact Es].
          intros i st Hi ->. exists (I, B, V). split; [|reflexivity]. unfold msweep. cbn [fst snd]. rewrite (is_mat_cols _ _ _ _ HB). reflexivity. }
        apply Hone. }
    cbn [bind]. destruct (mtranspose_good I 1 1 delta) as (It & EIt & HIt); [lia|lia|auto|exact HI|]. rewrite EIt. cbn [bind].
    rewrite mmul_panic; [reflexivity|]. rewrite (is_mat_cols _ _ _ _ HU), (is_mat_rows _ _ _ _ HIt). exact Hne.
  - rewrite for_loop_step by nia.
    replace (msweep (I, B, V)) with (@Panic (matrix R * matrix R * matrix R)); [reflexivity|].
    symmetry. unfold msweep. cbn [fst snd]. rewrite (is_mat_cols _ _ _ _ HB). rewrite usub_ok by lia. cbn [bind]. rewrite for_loop_step by lia.
    replace (msweep_step n 0 (I, B, V)) with (@Panic (matrix R * matrix R * matrix R)); [reflexivity|].
    symmetry. unfold msweep_step. rewrite EI. cbn [bind].
    rewrite !(is_mat_get B m n _ _ _ HB) by lia. cbn [bind].
    destruct (mrot _ _) as [[c s] r].
    destruct (set_rotation n 0 I delta c s) as (q1 & q2 & q3 & q4 & E1 & E2 & E3 & E4 & H4); [lia|exact HI|reflexivity|].
    cbn [Nat.add] in E2, E3, E4, H4 |- *.
    rewrite E1; cbn [bind]; rewrite E2; cbn [bind]; rewrite E3; cbn [bind]; rewrite E4; cbn [bind].
    destruct (mtranspose_good q4 n n (gvf 0 1 c s)) as (qt & Eqt & Hqt); [lia|lia|auto|exact H4|]. rewrite Eqt. cbn [bind].
    destruct (mmul_spec B qt m n n _ _ HB Hqt) as (b1 & Eb1 & Hb1). rewrite Eb1. cbn [bind].
    destruct (mmul_spec V qt n n n _ _ HV Hqt) as (v1 & Ev1 & Hv1). rewrite Ev1. cbn [bind].
    rewrite !(is_mat_get b1 m n _ _ _ Hb1) by lia. cbn [bind].
    destruct (mrot _ _) as [[c' s'] r'].
    destruct (mset_spec q4 n n _ 0 0 c' H4) as (q5 & E5 & H5); [lia|lia|]. rewrite E5. cbn [bind].
    destruct (mset_spec q5 n n _ 0 1 s' H5) as (q6 & E6 & H6); [lia|lia|]. rewrite E6. cbn [bind].
    destruct (mset_spec q6 n n _ 1 0 (- s')%sc H6) as (q7 & E7 & H7); [lia|lia|]. rewrite E7. cbn [bind].
    destruct (mset_spec q7 n n _ 1 1 c' H7) as (q8 & E8 & H8); [lia|lia|]. rewrite E8. cbn [bind].
    rewrite mmul_panic; [reflexivity|]. rewrite (is_mat_cols _ _ _ _ H8), (is_mat_rows _ _ _ _ Hb1). lia.
Qed.

(** ** Diagonal matrices *)
Lemma bidiag_diagonal (A : matrix R) n a : is_mat A n n a -> (1 <= n)%nat -> diagonal n n a -> (forall i, (i < n)%nat -> a i i <> 0) ->
  exists U B V fb, householder_bidiag A = Ret (U, B, V) /\ is_mat B n n fb /\ diagonal n n fb /\ (forall i, (i < n)%nat -> fb i i <> 0 /\ Rabs (fb i i) = Rabs (a i i)).
Proof.
  intros HA Hn Hd Hz. unfold householder_bidiag. rewrite (is_mat_rows _ _ _ _ HA), (is_mat_cols _ _ _ _ HA).
  rewrite Nat.ltb_irrefl. cbn [negb rassert bind].
  destruct (mone_spec (T:=R) n) as (In & EIn & HIn).
  rewrite EIn. cbn [bind]. rewrite usub_ok by lia. cbn [bind].
  destruct (for_loop_ind (fun i st => let '(u, a', v) := st in exists fu fa fv, is_mat u n n fu /\ is_mat a' n n fa /\ is_mat v n n fv /\ bd_inv n n a i fu fa fv /\
      diagonal n n fa /\ (forall i, (i < n)%nat -> fa i i <> 0 /\ Rabs (fa i i) = Rabs (a i i)))
    (bidiag_step n n) 0 (n - 1) (In, A, In)) as ([[u1 a1] v1] & EL & fu & fa & fv & Hu & Ha & Hv & Hinv & Hdi & Hab).
  - lia.
  - exists delta, a, delta. split; [exact HIn|]. split; [exact HA|]. split; [exact HIn|]. split; [apply bd_init|]. split; [exact Hd|]. intros; auto.
  - intros i [[u2 a2] v2] Hi (fu & fa & fv & Hu & Ha & Hv & Hinv & Hdi & Hab).
    destruct (bidiag_step_ok n n a i u2 a2 v2 fu fa fv) as (u4 & a4 & v4 & fu4 & fa4 & fv4 & E4 & F1 & F2 & F3 & F4 & F5 & _); auto; [lia| |].
    { exists i. split; [lia|]. apply Hab. lia. }
    exists (u4, a4, v4). split; [exact E4|]. exists fu4, fa4, fv4. repeat (split; [assumption|]).
    assert (G := F5 ltac:(intros; apply Hdi; lia) ltac:(intros; apply Hdi; lia)). split.
    + intros r c Hr Hc Hne. rewrite G by assumption. rewrite (Hdi r c Hr Hc Hne). ring.
    + intros j Hj. rewrite G by assumption. destruct (Hab j Hj) as [X Y]. destruct (j =? i)%nat.
      * split; [lra|]. replace (-1 * fa j j) with (- fa j j) by ring. rewrite Rabs_Ropp. exact Y.
      * rewrite Rmult_1_l. auto.
  - rewrite EL. cbn [bind]. destruct (bidiag_clean_ok n n a1 fa Ha) as (b & Eb & Hb). rewrite Eb. cbn [bind].
    exists u1, b, v1, fa. split; [reflexivity|]. split; [|auto]. eapply is_mat_ext; [|exact Hb]. intros r c Hr Hc. cbv beta. leb; cbn [orb]; try reflexivity. symmetry. apply Hdi; lia.
Qed.

Lemma gvf_id k (r c : nat) : gvf (T:=R) k (k + 1) 1 0 r c = delta r c.
Proof. unfold gvf, delta. leb; simpl; try reflexivity; ring. Qed.

Lemma msweep_step_diag n k u b v fu fb fv : (k + 1 < n)%nat -> is_mat u n n fu -> is_mat b n n fb -> is_mat v n n fv -> diagonal n n fb -> fb k k <> 0 ->
  exists u' v' fu' fv', msweep_step n k (u, b, v) = Ret (u', b, v') /\ is_mat u' n n fu' /\ is_mat v' n n fv'.
Proof.
  intros Hk Hu Hb Hv Hd Hz.
  destruct (msweep_step_ok n k u b v fu fb fv Hk Hu Hb Hv) as (c & s & c' & s' & r & r' & Er & Er' & _ & _ & u' & b' & v' & E & Hu' & Hb' & Hv').
  destruct (mrot_nonzero (fb k k) (fb k (k + 1)%nat) Hz) as (c0 & s0 & r0 & Er0 & _ & _ & _ & _ & Hcs).
  rewrite Er in Er0. injection Er0 as <- <- <-. destruct (Hcs (Hd k (k + 1)%nat ltac:(lia) ltac:(lia) ltac:(lia))) as [-> ->].
  assert (Hb1 : forall i j, (i < n)%nat -> (j < n)%nat -> mulf n fb (trf (gvf k (k + 1) 1 0)) i j = fb i j).
  { intros i j Hi Hj. transitivity (mulf n fb delta i j); [|apply (mulf_id_r R_RingLaws); assumption].
    apply mulf_ext; [reflexivity|]. intros l Hl. unfold trf. rewrite gvf_id. unfold delta. rewrite Nat.eqb_sym. reflexivity. }
  assert (Hz1 : mulf n fb (trf (gvf k (k + 1) 1 0)) k k <> 0) by (rewrite Hb1 by lia; exact Hz).
  destruct (mrot_nonzero _ (mulf n fb (trf (gvf k (k + 1) 1 0)) (k + 1)%nat k) Hz1) as (c0 & s0 & r0 & Er0 & _ & _ & _ & _ & Hcs').
  rewrite Er' in Er0. injection Er0 as <- <- <-. destruct (Hcs' ltac:(rewrite Hb1 by lia; apply Hd; lia)) as [-> ->].
  exists u', v'. eexists _, _. split; [|split; [exact Hu'|exact Hv']]. rewrite E. f_equal. f_equal. f_equal.
  eapply is_mat_unique; [|exact Hb]. eapply is_mat_ext; [|exact Hb']. intros i j Hi Hj. cbv beta.
  transitivity (mulf n delta (mulf n fb (trf (gvf k (k + 1) 1 0))) i j).
  - apply mulf_ext; [|reflexivity]. intros l Hl. apply gvf_id.
  - rewrite (mulf_id_l R_RingLaws) by assumption. apply Hb1; assumption.
Qed.

Lemma dec_sv_diagonal (A : matrix R) n a : is_mat A n n a -> (1 <= n)%nat -> diagonal n n a -> (forall i, (i < n)%nat -> a i i <> 0) ->
  exists U S V, dec_sv A = Ret (U, S, V) /\ is_mat S n n (fun i j => Rabs (a i j)).
Proof.
  intros HA Hn Hd Hz. destruct (bidiag_diagonal A n a HA Hn Hd Hz) as (U0 & B0 & V0 & fb & EB & HB & Hdb & Hab).
  destruct (bidiag_square A n a U0 B0 V0 HA EB) as (_ & f0 & b0 & v0 & HU & _ & HV & _).
  unfold dec_sv. rewrite EB. cbn [bind]. rewrite (is_mat_cols _ _ _ _ HB).
  destruct (mone_spec (T:=R) n) as (I & EI & HI). rewrite EI. cbn [bind].
  destruct (for_loop_ind (fun _ st => let '(u, b, v) := st in exists fu fv, b = B0 /\ is_mat u n n fu /\ is_mat v n n fv)
    (fun _ st => msweep st) 0 (500 * n * n) (I, B0, V0)) as ([[u1 b1] v1] & E1 & fu1 & fv1 & -> & H1 & H3).
  - lia.
  - exists delta, v0. auto.
  - intros i [[u b] v] Hi (fu & fv & -> & Hu & Hv). unfold msweep. cbn [fst snd]. rewrite (is_mat_cols _ _ _ _ HB). rewrite usub_ok by lia. cbn [bind].
    destruct (for_loop_ind (fun _ st => let '(u, b, v) := st in exists fu fv, b = B0 /\ is_mat u n n fu /\ is_mat v n n fv)
      (msweep_step n) 0 (n - 1) (u, B0, v)) as (st & Est & Hst).
    + lia.
    + eauto.
    + intros k [[u2 b2] v2] Hk (g1 & g2 & -> & G1 & G2).
      destruct (msweep_step_diag n k u2 B0 v2 g1 fb g2) as (u3 & v3 & g3 & g4 & E3 & F3 & F4); auto; [lia|apply Hab; lia|].
      exists (u3, B0, v3). split; [exact E3|]. eauto.
    + exists st. split; [exact Est|exact Hst].
  - rewrite E1. cbn [bind].
    destruct (mtranspose_good u1 n n fu1) as (ut & Eut & Hut); [lia|lia|auto|exact H1|]. rewrite Eut. cbn [bind].
    destruct (mmul_spec U0 ut n n n _ _ HU Hut) as (U1 & EU1 & HU1). rewrite EU1. cbn [bind].
    destruct (sv_signs_ok n U1 B0 _ fb HU1 HB) as (U2 & b2 & E2 & HU2 & Hb2). rewrite E2. cbn [bind].
    destruct (sv_clean_ok n b2 _ Hb2) as (b3 & E3 & Hb3). rewrite E3. cbn [bind].
    exists U2, b3, v1. split; [reflexivity|]. eapply is_mat_ext; [|exact Hb3]. intros i j Hi Hj. cbv beta.
    destruct (Nat.eqb_spec i j) as [->|Hne]; [apply Hab; assumption|]. rewrite (Hd i j Hi Hj Hne), Rabs_R0. reflexivity.
Qed.

(** A zero first column (two or more columns). *)
Lemma bidiag_zero_col (A : matrix R) m n a : is_mat A m n a -> (2 <= n <= m)%nat -> (forall r, (r < m)%nat -> a r 0%nat = 0) -> householder_bidiag A = Panic.
Proof.
  intros HA Hn Hz. unfold householder_bidiag. rewrite (is_mat_rows _ _ _ _ HA), (is_mat_cols _ _ _ _ HA).
  destruct (Nat.ltb_spec m n); [lia|]. cbn [negb rassert bind].
  destruct (mone_spec (T:=R) m) as (Im & EIm & HIm). destruct (mone_spec (T:=R) n) as (In & EIn & HIn).
  rewrite EIm. cbn [bind]. rewrite EIn. cbn [bind]. rewrite usub_ok by lia. cbn [bind].
  rewrite for_loop_step by lia. rewrite (bidiag_step_panic m n 0 Im A In a) by (auto; try lia; intros; apply Hz; lia). reflexivity.
Qed.

(** One column: nothing is eliminated, everything below the first entry is dropped. *)
Lemma bidiag_column (A : matrix R) m a : is_mat A m 1 a -> (1 <= m)%nat ->
  exists U B V, householder_bidiag A = Ret (U, B, V) /\ is_mat U m m delta /\ is_mat V 1 1 delta /\ is_mat B m 1 (fun i j => if (i =? 0)%nat then a i j else 0).
Proof.
  intros HA Hm. unfold householder_bidiag. rewrite (is_mat_rows _ _ _ _ HA), (is_mat_cols _ _ _ _ HA).
  destruct (Nat.ltb_spec m 1); [lia|]. cbn [negb rassert bind].
  destruct (mone_spec (T:=R) m) as (Im & EIm & HIm). destruct (mone_spec (T:=R) 1) as (In & EIn & HIn).
  rewrite EIm. cbn [bind]. rewrite EIn. cbn [bind]. rewrite usub_ok by lia. cbn [bind]. rewrite for_loop_nil by lia. cbn [bind].
  destruct (bidiag_clean_ok m 1 A a HA) as (b & Eb & Hb). rewrite Eb. cbn [bind]. exists Im, b, In. split; [reflexivity|]. split; [exact HIm|]. split; [exact HIn|].
  eapply is_mat_ext; [|exact Hb]. intros i j Hi Hj. cbv beta. leb; cbn [orb]; try reflexivity. 
Qed.

(** ** 2 x 2: the rate *)
Lemma bidiag_two (A : matrix R) a : is_mat A 2 2 a -> (a 0%nat 0%nat <> 0 \/ a 1%nat 0%nat <> 0) ->
  exists U B V fb, householder_bidiag A = Ret (U, B, V) /\ is_mat B 2 2 fb /\ fb 1%nat 0%nat = 0 /\
    let x := fb 0%nat 0%nat in let y := fb 0%nat 1%nat in let z := fb 1%nat 1%nat in
    x * x = a 0%nat 0%nat * a 0%nat 0%nat + a 1%nat 0%nat * a 1%nat 0%nat /\
    x * y = a 0%nat 0%nat * a 0%nat 1%nat + a 1%nat 0%nat * a 1%nat 1%nat /\
    y * y + z * z = a 0%nat 1%nat * a 0%nat 1%nat + a 1%nat 1%nat * a 1%nat 1%nat.
Proof.
  intros HA Hz. unfold householder_bidiag. rewrite (is_mat_rows _ _ _ _ HA), (is_mat_cols _ _ _ _ HA).
  cbn [Nat.ltb Nat.leb negb rassert bind].
  destruct (mone_spec (T:=R) 2) as (I & EI & HI).
  rewrite EI. cbn [bind]. rewrite usub_ok by lia. cbn [bind Nat.sub].
  rewrite for_loop_step by lia.
  destruct (bidiag_step_ok 2 2 a 0 I A I delta a delta) as (u & b & v & fu & fa & fv & E & F1 & F2 & F3 & (Ou & Ov & Hf & _ & Hlow & _) & _ & Hvd); auto; [apply bd_init| |].
  { destruct Hz; [exists 0%nat|exists 1%nat]; (split; [lia|assumption]). }
  rewrite E. cbn [bind]. rewrite for_loop_nil by lia. cbn [bind].
  destruct (bidiag_clean_ok 2 2 b fa F2) as (b' & Eb & Hb). rewrite Eb. cbn [bind].
  assert (L0 : fa 1%nat 0%nat = 0) by (apply Hlow; lia).
  exists u, b', v, fa. split; [reflexivity|]. split.
  { eapply is_mat_ext; [|exact Hb]. intros r c Hr Hc. cbv beta. leb; cbn [orb]; try reflexivity. symmetry. replace r with 1%nat by lia. replace c with 0%nat by lia. exact L0. }
  split; [exact L0|].
  assert (Hf2 : feq 2 2 (mulf 2 fu fa) a).
  { eapply feq_trans; [|exact Hf]. apply feq_sym. eapply feq_trans; [apply feq_mulf; [apply feq_refl|apply feq_trf; apply Hvd; reflexivity]|].
    eapply feq_trans; [|apply (feq_id_r R_RingLaws)]. apply feq_mulf; [apply feq_refl|]. intros r c _ _. unfold trf, delta. rewrite Nat.eqb_sym. reflexivity. }
  assert (HG : feq 2 2 (mulf 2 (trf fa) fa) (mulf 2 (trf a) a)).
  { apply feq_sym. eapply feq_trans; [apply feq_mulf; [apply feq_trf; apply feq_sym; exact Hf2|apply feq_sym; exact Hf2]|].
    eapply feq_trans; [apply feq_mulf; [apply (feq_trf_mulf R_RingLaws)|apply feq_refl]|].
    eapply feq_trans; [apply (feq_assoc R_RingLaws)|]. apply feq_mulf; [apply feq_refl|].
    eapply feq_trans; [apply feq_sym, (feq_assoc R_RingLaws)|].
    eapply feq_trans; [apply feq_mulf; [apply Ou|apply feq_refl]|]. apply (feq_id_l R_RingLaws). }
  pose proof (HG 0%nat 0%nat ltac:(lia) ltac:(lia)) as G00. pose proof (HG 0%nat 1%nat ltac:(lia) ltac:(lia)) as G01. pose proof (HG 1%nat 1%nat ltac:(lia) ltac:(lia)) as G11.
  unfold mulf, trf in G00, G01, G11. simpl in G00, G01, G11. rewrite L0 in G00, G01. cbv zeta. lra.
Qed.

(** One sweep of an upper triangular 2 x 2 matrix. *)
Lemma sweep_algebra x y z c s c' s' : x <> 0 -> c * c + s * s = 1 -> c * y = s * x -> c' * c' + s' * s' = 1 ->
  c' * (s * z) = s' * (c * x + s * y) ->
  let x' := c' * (c * x + s * y) + s' * (s * z) in let y' := s' * (c * z) in let z' := c' * (c * z) in
  x' <> 0 /\ x * x + y * y <= x' * x' /\ x' * x' * (z' * z') = x * x * (z * z) /\
  x' * x' * (y' * y') * ((x * x + y * y) * (x * x + y * y)) = x * x * (y * y) * (z * z * (z * z)) /\ (y' = 0 <-> y = 0 \/ z = 0).
Proof.
  intros Hx H1 H2 H3 H4. cbv zeta. set (r := c * x + s * y) in *.
  assert (Hr : r * r = x * x + y * y).
  { unfold r. replace (x * x + y * y) with ((c * c + s * s) * (x * x + y * y) - (c * y - s * x) * (c * y - s * x)) by (rewrite H1, H2; ring). ring. }
  assert (Hr0 : r <> 0). { intros E. rewrite E in Hr. assert (0 < x * x) by nra. nra. }
  set (x' := c' * r + s' * (s * z)).
  assert (Hx' : x' * x' = r * r + s * z * (s * z)).
  { unfold x'. replace (r * r + s * z * (s * z)) with ((c' * c' + s' * s') * (r * r + s * z * (s * z)) - (c' * (s * z) - s' * r) * (c' * (s * z) - s' * r)) by (rewrite H3, H4; ring). ring. }
  assert (Hcr : c * r = x).
  { unfold r. transitivity ((c * c + s * s) * x); [|rewrite H1; ring]. replace (c * (c * x + s * y)) with (c * c * x + s * (c * y)) by ring. rewrite H2. ring. }
  assert (Hsr : s * r = y).
  { unfold r. transitivity ((c * c + s * s) * y); [|rewrite H1; ring]. replace (s * (c * x + s * y)) with (c * (s * x) + s * s * y) by ring. rewrite <- H2. ring. }
  assert (Hcx : c' * x' = r).
  { unfold x'. transitivity ((c' * c' + s' * s') * r); [|rewrite H3; ring]. replace (c' * (c' * r + s' * (s * z))) with (c' * c' * r + s' * (c' * (s * z))) by ring. rewrite H4. ring. }
  assert (Hsx : s' * x' = s * z).
  { unfold x'. transitivity ((c' * c' + s' * s') * (s * z)); [|rewrite H3; ring]. replace (s' * (c' * r + s' * (s * z))) with (c' * (s' * r) + s' * s' * (s * z)) by ring. rewrite <- H4. ring. }
  assert (Hx0 : x' <> 0). { intros E. rewrite E, Rmult_0_r in Hcx. apply Hr0. symmetry. exact Hcx. }
  assert (Hc0 : c <> 0). { intros E. rewrite E, Rmult_0_l in Hcr. apply Hx. symmetry. exact Hcr. }
  split; [exact Hx0|]. split; [rewrite Hx', <- Hr; nra|]. split; [|split].
  - replace (x' * x' * (c' * (c * z) * (c' * (c * z)))) with ((c' * x') * (c' * x') * (c * z * (c * z))) by ring. rewrite Hcx.
    replace (r * r * (c * z * (c * z))) with ((c * r) * (c * r) * (z * z)) by ring. rewrite Hcr. ring.
  - replace (x' * x' * (s' * (c * z) * (s' * (c * z))) * ((x * x + y * y) * (x * x + y * y))) with ((s' * x') * (s' * x') * (c * z * (c * z)) * ((x * x + y * y) * (x * x + y * y))) by ring.
    rewrite Hsx, <- Hr. replace (s * z * (s * z) * (c * z * (c * z)) * (r * r * (r * r))) with ((s * r) * (s * r) * ((c * r) * (c * r)) * (z * z * (z * z))) by ring.
    rewrite Hsr, Hcr. ring.
  - split.
    + intros E. apply Rmult_integral in E. destruct E as [E|E].
      * rewrite E, Rmult_0_l in Hsx. symmetry in Hsx. apply Rmult_integral in Hsx. destruct Hsx as [Es|]; [|auto]. left. rewrite <- Hsr, Es. ring.
      * apply Rmult_integral in E. destruct E; [contradiction|auto].
    + intros [E|E].
      * rewrite E in Hsr. apply Rmult_integral in Hsr. destruct Hsr as [Es|]; [|contradiction]. rewrite Es, Rmult_0_l in Hsx. apply Rmult_integral in Hsx. destruct Hsx as [Es'|]; [|contradiction]. rewrite Es'. ring.
      * rewrite E. ring.
Qed.

Lemma msweep_two u b v fu fb fv u' b' v' : is_mat u 2 2 fu -> is_mat b 2 2 fb -> is_mat v 2 2 fv -> fb 1%nat 0%nat = 0 -> fb 0%nat 0%nat <> 0 ->
  msweep (u, b, v) = Ret (u', b', v') ->
  let x := fb 0%nat 0%nat in let y := fb 0%nat 1%nat in let z := fb 1%nat 1%nat in
  exists fb', is_mat b' 2 2 fb' /\ fb' 1%nat 0%nat = 0 /\
    let x' := fb' 0%nat 0%nat in let y' := fb' 0%nat 1%nat in let z' := fb' 1%nat 1%nat in
    x' <> 0 /\ x * x + y * y <= x' * x' /\ x' * x' * (z' * z') = x * x * (z * z) /\
    x' * x' * (y' * y') * ((x * x + y * y) * (x * x + y * y)) = x * x * (y * y) * (z * z * (z * z)) /\ (y' = 0 <-> y = 0 \/ z = 0).
Proof.
  intros Hu Hb Hv L0 Hx E x y z. unfold msweep in E. cbn [fst snd] in E. rewrite (is_mat_cols _ _ _ _ Hb) in E. rewrite usub_ok in E by lia. cbn [bind Nat.sub] in E.
  rewrite for_loop_step in E by lia.
  destruct (msweep_step_ok 2 0 u b v fu fb fv) as (c & s & c' & s' & r & r' & Er & Er' & _ & _ & u3 & b3 & v3 & E3 & G1 & G2 & G3); auto.
  cbn [Nat.add] in *. rewrite E3 in E. cbn [bind] in E. rewrite for_loop_nil in E by lia. injection E as <- <- <-.
  destruct (mrot_nonzero x y Hx) as (c0 & s0 & r0 & Er0 & H1 & H2 & _ & _ & _). unfold x, y in Er0. rewrite Er in Er0. injection Er0 as <- <- <-.
  set (b1 := mulf 2 fb (trf (gvf 0 1 c s))) in *.
  assert (B00 : b1 0%nat 0%nat = c * x + s * y) by (unfold b1, mulf, trf, gvf, x, y; simpl; ring).
  assert (B01 : b1 0%nat 1%nat = 0) by (unfold b1, mulf, trf, gvf; simpl; fold x y; lra).
  assert (B10 : b1 1%nat 0%nat = s * z) by (unfold b1, mulf, trf, gvf, z; simpl; rewrite L0; ring).
  assert (B11 : b1 1%nat 1%nat = c * z) by (unfold b1, mulf, trf, gvf, z; simpl; rewrite L0; ring).
  destruct (mrot_spec (b1 0%nat 0%nat) (b1 1%nat 0%nat)) as (c0 & s0 & r0 & Er0 & H3 & H4 & _). rewrite Er' in Er0. injection Er0 as <- <- <-.
  rewrite B00, B10 in H4.
  eexists. split; [exact G2|].
  assert (D00 : mulf 2 (gvf 0 1 c' s') b1 0%nat 0%nat = c' * (c * x + s * y) + s' * (s * z)) by (rewrite <- B00, <- B10; unfold mulf, gvf; simpl; ring).
  assert (D01 : mulf 2 (gvf 0 1 c' s') b1 0%nat 1%nat = s' * (c * z)) by (rewrite <- B11; unfold mulf, gvf; simpl; rewrite B01; ring).
  assert (D10 : mulf 2 (gvf 0 1 c' s') b1 1%nat 0%nat = 0).
  { transitivity (c' * (s * z) - s' * (c * x + s * y)); [rewrite <- B00, <- B10; unfold mulf, gvf; simpl; ring|rewrite H4; ring]. }
  assert (D11 : mulf 2 (gvf 0 1 c' s') b1 1%nat 1%nat = c' * (c * z)) by (rewrite <- B11; unfold mulf, gvf; simpl; rewrite B01; ring).
  split; [exact D10|]. rewrite D00, D01, D11. apply sweep_algebra; assumption.
Qed.

(** After k sweeps. *)
Definition two_inv (y0 q : R) (k : nat) (f : nat -> nat -> R) : Prop :=
  f 1%nat 0%nat = 0 /\ f 0%nat 0%nat <> 0 /\
  let x := f 0%nat 0%nat in let y := f 0%nat 1%nat in let z := f 1%nat 1%nat in
  z * z <= q * (x * x + y * y) /\ y * y <= y0 * q ^ (2 * k).

Lemma two_inv_sweep y0 q : 0 <= q -> 0 <= y0 -> sweep_inv 2 (two_inv y0 q).
Proof.
  intros Hq Hy0 k u b v fu fb fv u' b' v' Hu Hb Hv (L0 & Hx & Hz & Hy) E.
  destruct (msweep_two u b v fu fb fv u' b' v' Hu Hb Hv L0 Hx E) as (fb' & Hb' & L0' & Hx' & Hge & Hz' & Hy' & _).
  exists fb'. split; [exact Hb'|]. split; [exact L0'|]. split; [exact Hx'|]. cbv zeta in *.
  set (x := fb 0%nat 0%nat) in *. set (y := fb 0%nat 1%nat) in *. set (z := fb 1%nat 1%nat) in *.
  set (x' := fb' 0%nat 0%nat) in *. set (y' := fb' 0%nat 1%nat) in *. set (z' := fb' 1%nat 1%nat) in *.
  assert (HX : 0 < x * x) by nra. assert (HX' : 0 < x' * x') by nra.
  assert (Hzz : z' * z' <= z * z).
  { apply (Rmult_le_reg_l (x' * x')); [exact HX'|]. rewrite Hz'. apply Rmult_le_compat_r; [nra|]. nra. }
  split.
  - apply Rle_trans with (z * z); [exact Hzz|]. apply Rle_trans with (q * (x * x + y * y)); [exact Hz|]. apply Rmult_le_compat_l; [exact Hq|nra].
  - set (N := x * x + y * y) in *. assert (HN : 0 < N) by (unfold N; nra).
    replace (2 * S k)%nat with (2 + 2 * k)%nat by lia. rewrite pow_add.
    assert (Hz2 : z * z * (z * z) <= q * N * (q * N)) by (apply Rmult_le_compat; nra).
    assert (HM : x' * x' * (y' * y') * (N * N) <= x' * x' * (y0 * (q ^ 2 * q ^ (2 * k))) * (N * N)).
    { rewrite Hy'. apply Rle_trans with (x * x * (y * y) * (q * N * (q * N))).
      - apply Rmult_le_compat_l; [nra|exact Hz2].
      - apply Rle_trans with (x' * x' * (y * y) * (q * N * (q * N))).
        + apply Rmult_le_compat_r; [apply Rle_0_sqr|]. apply Rmult_le_compat_r; [nra|]. unfold N in Hge. nra.
        + replace (x' * x' * (y * y) * (q * N * (q * N))) with (x' * x' * q ^ 2 * (N * N) * (y * y)) by (simpl; ring).
          replace (x' * x' * (y0 * (q ^ 2 * q ^ (2 * k))) * (N * N)) with (x' * x' * q ^ 2 * (N * N) * (y0 * q ^ (2 * k))) by ring.
          apply Rmult_le_compat_l; [|exact Hy]. apply Rmult_le_pos; [apply Rmult_le_pos; [lra|apply pow2_ge_0]|nra]. }
    apply (Rmult_le_reg_l (x' * x')); [exact HX'|]. apply (Rmult_le_reg_r (N * N)); [nra|exact HM].
Qed.

Definition two_nz (k : nat) (f : nat -> nat -> R) : Prop := f 1%nat 0%nat = 0 /\ f 0%nat 0%nat <> 0 /\ f 0%nat 1%nat <> 0 /\ f 1%nat 1%nat <> 0.
Lemma two_nz_sweep : sweep_inv 2 two_nz.
Proof.
  intros k u b v fu fb fv u' b' v' Hu Hb Hv (L0 & Hx & Hy & Hz) E.
  destruct (msweep_two u b v fu fb fv u' b' v' Hu Hb Hv L0 Hx E) as (fb' & Hb' & L0' & Hx' & _ & Hz' & _ & Hy').
  exists fb'. split; [exact Hb'|]. split; [exact L0'|]. split; [exact Hx'|]. split.
  - intros E0. apply Hy' in E0. destruct E0; contradiction.
  - intros E0. rewrite E0 in Hz'. assert (0 < fb 0%nat 0%nat * fb 0%nat 0%nat) by nra. assert (0 < fb 1%nat 1%nat * fb 1%nat 1%nat) by nra.
    assert (0 < fb 0%nat 0%nat * fb 0%nat 0%nat * (fb 1%nat 1%nat * fb 1%nat 1%nat)) by (apply Rmult_lt_0_compat; assumption). lra.
Qed.

Lemma frob2_two f : frob2 2 2 (fun i j => if (i =? j)%nat then 0 else f i j) = f 0%nat 1%nat * f 0%nat 1%nat + f 1%nat 0%nat * f 1%nat 0%nat.
Proof. unfold frob2. simpl. ring. Qed.

Lemma dec_sv_two (A : matrix R) a : is_mat A 2 2 a -> (a 0%nat 0%nat <> 0 \/ a 1%nat 0%nat <> 0) ->
  let N := a 0%nat 0%nat * a 0%nat 0%nat + a 1%nat 0%nat * a 1%nat 0%nat in
  let d := a 0%nat 0%nat * a 0%nat 1%nat + a 1%nat 0%nat * a 1%nat 1%nat in
  let D := a 0%nat 0%nat * a 1%nat 1%nat - a 0%nat 1%nat * a 1%nat 0%nat in
  exists U S V fu fs fv, dec_sv A = Ret (U, S, V) /\ is_mat U 2 2 fu /\ is_mat S 2 2 fs /\ is_mat V 2 2 fv /\
    let e := frob2 2 2 (fun i j => a i j - mulf 2 (mulf 2 fu fs) (trf fv) i j) in
    e <= d * d / N * (D * D / (N * N + d * d)) ^ (2 * (500 * 2 * 2)) /\
    (d <> 0 -> D <> 0 -> 0 < e).
Proof.
  intros HA Hz. cbv zeta.
  set (N := a 0%nat 0%nat * a 0%nat 0%nat + a 1%nat 0%nat * a 1%nat 0%nat).
  set (d := a 0%nat 0%nat * a 0%nat 1%nat + a 1%nat 0%nat * a 1%nat 1%nat).
  set (D := a 0%nat 0%nat * a 1%nat 1%nat - a 0%nat 1%nat * a 1%nat 0%nat).
  destruct (bidiag_two A a HA Hz) as (U0 & B0 & V0 & b0 & EB & HB & L0 & Hxx & Hxy & Hyz). cbv zeta in Hxx, Hxy, Hyz. fold N in Hxx. fold d in Hxy.
  set (x := b0 0%nat 0%nat) in *. set (y := b0 0%nat 1%nat) in *. set (z := b0 1%nat 1%nat) in *.
  assert (HN : 0 < N) by (unfold N; destruct Hz; nra).
  assert (Hx : x <> 0) by (intros E; rewrite E in Hxx; lra).
  assert (Hyy : N * (y * y) = d * d) by (rewrite <- Hxx, <- Hxy; ring).
  assert (Hzz : N * (z * z) = D * D).
  { replace (D * D) with (N * (a 0%nat 1%nat * a 0%nat 1%nat + a 1%nat 1%nat * a 1%nat 1%nat) - d * d) by (unfold N, d, D; ring). rewrite <- Hyz, <- Hyy. ring. }
  destruct (dec_sv_tail (fun _ _ => True) A 2 a U0 B0 V0 b0 HA EB HB (sweep_inv_true 2 ltac:(lia)) ltac:(auto) I) as (_ & U & S & V & _ & _ & _ & _ & E & _).
  assert (Hext : forall y0 q k f g, feq 2 2 f g -> two_inv y0 q k f -> two_inv y0 q k g).
  { intros y0 q k f g Hfg (F1 & F2 & F3 & F4). unfold two_inv. rewrite <- !Hfg by lia. auto. }
  assert (Hext2 : forall k f g, feq 2 2 f g -> two_nz k f -> two_nz k g).
  { intros k f g Hfg (F1 & F2 & F3 & F4). unfold two_nz. rewrite <- !Hfg by lia. auto. }
  set (q := D * D / (N * N + d * d)). assert (HK : 0 < N * N + d * d) by nra.
  assert (Hq : 0 <= q). { unfold q. apply Rmult_le_pos; [nra|]. left. apply Rinv_0_lt_compat. exact HK. }
  assert (Hy0 : 0 <= d * d / N). { apply Rmult_le_pos; [nra|]. left. apply Rinv_0_lt_compat. exact HN. }
  destruct (dec_sv_gen (two_inv (d * d / N) q) A 2 a U0 B0 V0 b0 U S V HA EB HB (two_inv_sweep _ q Hq Hy0) (Hext _ q)) as
    (fu & fs & fv & fb & H1 & H2 & H3 & _ & _ & _ & _ & _ & _ & (L1 & _ & _ & Hb1) & He); [|exact E|].
  { split; [exact L0|]. split; [exact Hx|]. cbv zeta. fold x y z. split.
    - apply Req_le. apply (Rmult_eq_reg_l N); [|lra]. rewrite Hzz. unfold q. replace (x * x + y * y) with ((N * N + d * d) / N). 
      + field. split; lra.
      + rewrite Hxx, <- Hyy. field. lra.
    - simpl. rewrite Rmult_1_r. apply Req_le. rewrite <- Hyy. field. lra. }
  exists U, S, V, fu, fs, fv. split; [exact E|]. split; [exact H1|]. split; [exact H2|]. split; [exact H3|].
  rewrite He, frob2_two. split.
  - rewrite L1. cbv zeta in Hb1. lra.
  - intros Hd HD.
    destruct (dec_sv_gen two_nz A 2 a U0 B0 V0 b0 U S V HA EB HB two_nz_sweep Hext2) as
      (fu2 & fs2 & fv2 & fb2 & G1 & G2 & G3 & _ & _ & _ & _ & _ & _ & (M1 & _ & M2 & _) & He2); [|exact E|].
    { split; [exact L0|]. split; [exact Hx|]. fold y z. split; intros E0; rewrite E0 in *; nra. }
    rewrite <- frob2_two, <- He.
    rewrite (frob2_feq 2 _ (fun i j => a i j - mulf 2 (mulf 2 fu2 fs2) (trf fv2) i j)).
    + rewrite He2, frob2_two. nra.
    + intros i j Hi Hj. cbv beta. f_equal. apply (feq_mulf 2 2 2); [apply feq_mulf| |exact Hi|exact Hj].
      * intros k l Hk Hl. exact (is_mat_entry_unique _ _ _ _ _ k l H1 G1 Hk Hl).
      * intros k l Hk Hl. exact (is_mat_entry_unique _ _ _ _ _ k l H2 G2 Hk Hl).
      * apply feq_trf. intros k l Hk Hl. exact (is_mat_entry_unique _ _ _ _ _ k l H3 G3 Hk Hl).
Qed.

Lemma dec_sv_exact (A : matrix R) n a U S V fu fs fv : is_mat A n n a -> dec_sv A = Ret (U, S, V) ->
  is_mat U n n fu -> is_mat S n n fs -> is_mat V n n fv ->
  (feq n n (mulf n (mulf n fu fs) (trf fv)) a <-> sumn n (fun l => fs l l * fs l l) = frob2 n n a).
Proof.
  intros HA E HU HS HV. destruct (dec_sv_spec A n a U S V HA E) as (fu' & fs' & fv' & HU' & HS' & HV' & _ & _ & _ & _ & _ & Hf).
  assert (Eu : feq n n fu fu') by (intros i j Hi Hj; exact (is_mat_entry_unique _ _ _ _ _ i j HU HU' Hi Hj)).
  assert (Es : feq n n fs fs') by (intros i j Hi Hj; exact (is_mat_entry_unique _ _ _ _ _ i j HS HS' Hi Hj)).
  assert (Ev : feq n n fv fv') by (intros i j Hi Hj; exact (is_mat_entry_unique _ _ _ _ _ i j HV HV' Hi Hj)).
  assert (EP : feq n n (mulf n (mulf n fu fs) (trf fv)) (mulf n (mulf n fu' fs') (trf fv'))) by (apply feq_mulf; [apply feq_mulf; assumption|apply feq_trf; exact Ev]).
  rewrite (sumn_ext n _ (fun l => fs' l l * fs' l l)) by (intros l Hl; rewrite Es by exact Hl; reflexivity).
  rewrite Hf. split.
  - intros H. enough (frob2 n n (fun i j => a i j - mulf n (mulf n fu' fs') (trf fv') i j) = 0) by lra.
    apply frob2_zero. intros i j Hi Hj. rewrite <- (EP i j Hi Hj), (H i j Hi Hj). ring.
  - intros H. assert (H0 : frob2 n n (fun i j => a i j - mulf n (mulf n fu' fs') (trf fv') i j) = 0) by lra.
    intros i j Hi Hj. rewrite (EP i j Hi Hj). pose proof (proj1 (frob2_zero n n _) H0 i j Hi Hj) as H1. cbv beta in H1. lra.
Qed.
