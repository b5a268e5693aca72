(** Bidiagonalisation and the singular value iteration over the reals. *)
From Coq Require Import Arith List Bool Lia Ring Reals Lra Psatz.
From Verif Require Import Outcome Scalar Matrix_model Transpose_model Vector_model LU_model Decomp_model Spectral_model
  Matrix_spec LU_spec Decomp_spec Matrix_proofs Transpose_proofs Vector_proofs Sums MatProps_proofs VecProps_proofs
  LU_proofs Subst_proofs LUProps_proofs Chol_proofs Norm_proofs Ortho_proofs RealOps Householder_proofs Spectral_spec.
Import ListNotations.
Local Open Scope R_scope.

Ltac leb := repeat match goal with
  | |- context[(?a <=? ?b)%nat] => destruct (Nat.leb_spec a b); try lia
  | |- context[(?a <? ?b)%nat] => destruct (Nat.ltb_spec a b); try lia
  | |- context[(?a =? ?b)%nat] => destruct (Nat.eqb_spec a b); try lia end; cbn [andb negb].

(** ** Embedding an orthogonal block *)
Definition embf (i : nat) (h : nat -> nat -> R) : nat -> nat -> R :=
  fun r c => if (i <=? r)%nat && (i <=? c)%nat then h (r - i)%nat (c - i)%nat else delta r c.

Lemma sumn_shift m i (f : nat -> R) : (i <= m)%nat -> sumn m f = sumn i f + sumn (m - i) (fun l => f (i + l)%nat).
Proof. intros H. replace m with (i + (m - i))%nat at 1 by lia. rewrite (sumn_split R_RingLaws). reflexivity. Qed.

(** Only two neighbouring terms. *)
Lemma sumn_block2 n r (f : nat -> R) : (r + 1 < n)%nat -> (forall c, (c < n)%nat -> c <> r /\ c <> (r + 1)%nat -> f c = 0) -> sumn n f = f r + f (r + 1)%nat.
Proof.
  intros Hr Hz. rewrite (sumn_shift n r) by lia. rewrite (sumn_zero_ext R_RingLaws r) by (intros; apply Hz; lia).
  replace (n - r)%nat with (2 + (n - r - 2))%nat by lia. rewrite (sumn_split R_RingLaws).
  rewrite (sumn_zero_ext R_RingLaws (n - r - 2)) by (intros; apply Hz; lia). simpl. rewrite Nat.add_0_r. ring.
Qed.

Lemma embf_mul m i h g r c : (i <= m)%nat -> (r < m)%nat ->
  mulf m (embf i h) g r c = if (i <=? r)%nat then sumn (m - i) (fun l => h (r - i)%nat l * g (i + l)%nat c) else g r c.
Proof.
  intros Hi Hr. unfold mulf. destruct (Nat.leb_spec i r).
  - rewrite (sumn_shift m i) by lia. rewrite (sumn_zero_ext R_RingLaws i).
    + change (@zero R R_ops) with 0. rewrite Rplus_0_l. apply sumn_ext. intros l Hl. unfold embf. leb.
      replace (i + l - i)%nat with l by lia. reflexivity.
    + intros l Hl. unfold embf; leb; unfold delta; leb; simpl; ring.
  - rewrite (sumn_single R_RingLaws m r); [|lia|].
    + unfold embf; leb; unfold delta; rewrite Nat.eqb_refl; simpl; ring.
    + intros l Hl Hne. unfold embf; leb; unfold delta; leb; simpl; ring.
Qed.
Lemma embf_mul_r m i h g r c : (i <= m)%nat -> (c < m)%nat ->
  mulf m g (embf i h) r c = if (i <=? c)%nat then sumn (m - i) (fun l => g r (i + l)%nat * h l (c - i)%nat) else g r c.
Proof.
  intros Hi Hr. unfold mulf. destruct (Nat.leb_spec i c).
  - rewrite (sumn_shift m i) by lia. rewrite (sumn_zero_ext R_RingLaws i).
    + change (@zero R R_ops) with 0. rewrite Rplus_0_l. apply sumn_ext. intros l Hl. unfold embf. leb.
      replace (i + l - i)%nat with l by lia. reflexivity.
    + intros l Hl. unfold embf; leb; unfold delta; leb; simpl; ring.
  - rewrite (sumn_single R_RingLaws m c); [|lia|].
    + unfold embf; leb; unfold delta; rewrite Nat.eqb_refl; simpl; ring.
    + intros l Hl Hne. unfold embf; leb; unfold delta; leb; simpl; ring.
Qed.

Lemma trf_embf i h r c : trf (embf i h) r c = embf i (trf h) r c.
Proof. unfold trf, embf, delta. rewrite andb_comm, (Nat.eqb_sym c r). reflexivity. Qed.

Lemma embf_half m i h : (i <= m)%nat -> feq (m - i) (m - i) (mulf (m - i) h (trf h)) delta ->
  feq m m (mulf m (embf i h) (trf (embf i h))) delta.
Proof.
  intros Hi Ho r c Hr Hc. rewrite embf_mul by assumption. destruct (Nat.leb_spec i r).
  - rewrite (sumn_ext (m - i) _ (fun l => h (r - i)%nat l * embf i (trf h) (i + l)%nat c)) by (intros; rewrite trf_embf; reflexivity).
    destruct (Nat.le_gt_cases i c).
    + transitivity (mulf (m - i) h (trf h) (r - i)%nat (c - i)%nat).
      * unfold mulf. apply sumn_ext. intros l Hl. unfold embf. leb. replace (i + l - i)%nat with l by lia. reflexivity.
      * rewrite Ho by lia. unfold delta. leb; reflexivity.
    + transitivity 0.
      * apply (sumn_zero_ext R_RingLaws). intros l Hl. unfold embf; leb; unfold delta; leb; simpl; ring.
      * unfold delta. leb. reflexivity.
  - rewrite trf_embf. unfold embf; leb; reflexivity.
Qed.
Lemma embf_orthogonal m i h : (i <= m)%nat -> orthogonal (m - i) h -> orthogonal m (embf i h).
Proof.
  intros Hi [H1 H2]. split; [apply embf_half; assumption|].
  intros r c Hr Hc. rewrite <- (embf_half m i (trf h) Hi H2 r c Hr Hc). apply mulf_ext; intros l Hl.
  - apply trf_embf.
  - unfold trf at 1. symmetry. rewrite <- (trf_embf i (trf h)). reflexivity.
Qed.

(** The set_slice of a block into the identity. *)
Lemma emb_slice m i (H : matrix R) h : (i < m)%nat -> is_mat H (m - i) (m - i) h ->
  exists I M, mone m = Ret I /\ mset_slice I H i i = Ret M /\ is_mat M m m (embf i h).
Proof.
  intros Hi HH. destruct (mone_spec (T:=R) m) as (I & EI & HI). exists I.
  destruct (mset_slice_spec I m m _ H _ _ _ i i HI HH) as (M & EM & HM); [lia|lia|]. exists M. split; [exact EI|]. split; [exact EM|].
  eapply is_mat_ext; [|exact HM]. intros r c Hr Hc. cbv beta. unfold embf. leb; reflexivity.
Qed.
(** A 1 x 1 identity placed anywhere on the diagonal leaves the identity unchanged. *)
Lemma emb_one m i : (i < m)%nat -> exists I1 I M, mone (T:=R) 1 = Ret I1 /\ mone m = Ret I /\ mset_slice I I1 i i = Ret M /\ is_mat M m m (delta (T:=R)).
Proof.
  intros Hi. destruct (mone_spec (T:=R) 1) as (I1 & E1 & H1). destruct (mone_spec (T:=R) m) as (I & EI & HI). exists I1, I.
  destruct (mset_slice_spec I m m _ I1 _ _ _ i i HI H1) as (M & EM & HM); [lia|lia|]. exists M. split; [exact E1|]. split; [exact EI|]. split; [exact EM|].
  eapply is_mat_ext; [|exact HM]. intros r c Hr Hc. cbv beta. leb; try reflexivity.
  replace (r - i)%nat with 0%nat by lia. replace (c - i)%nat with 0%nat by lia. unfold delta. leb. reflexivity.
Qed.

(** ** One step of the bidiagonalisation *)

(** U a V^T = A with U, V orthogonal, the first [i] columns and rows done. *)
Definition bd_inv (m n : nat) (A : nat -> nat -> R) (i : nat) (fu fa fv : nat -> nat -> R) : Prop :=
  orthogonal m fu /\ orthogonal n fv /\ feq m n (mulf n (mulf m fu fa) (trf fv)) A /\
  (forall c, (c < i)%nat -> fa c c <> 0) /\
  (forall r c, (r < m)%nat -> (c < i)%nat -> (c < r)%nat -> fa r c = 0) /\
  (forall r c, (r < i)%nat -> (c < n)%nat -> (r + 1 < c)%nat -> fa r c = 0).

(** The last clause describes a diagonal step. *)
Lemma bidiag_step_ok m n A i u a v fu fa fv : (n <= m)%nat -> (i < n - 1)%nat ->
  is_mat u m m fu -> is_mat a m n fa -> is_mat v n n fv -> bd_inv m n A i fu fa fv ->
  (exists r, (i <= r < m)%nat /\ fa r i <> 0) ->
  exists u' a' v' fu' fa' fv', bidiag_step m n i (u, a, v) = Ret (u', a', v') /\
    is_mat u' m m fu' /\ is_mat a' m n fa' /\ is_mat v' n n fv' /\ bd_inv m n A (S i) fu' fa' fv' /\
    ((forall r, (i < r < m)%nat -> fa r i = 0) -> (forall c, (i < c < n)%nat -> fa i c = 0) ->
     (forall r c, (r < m)%nat -> (c < n)%nat -> fa' r c = (if (r =? i)%nat then -1 else 1) * fa r c)) /\
    (n = (i + 2)%nat -> feq n n fv' fv).
Proof.
  intros Hmn Hi Hu Ha Hv (Ou & Ov & HA & Hd & Hlow & Hup) (r0 & Hr0 & Hnz). unfold bidiag_step.
  destruct (mget_column_spec a m n fa i Ha) as (ux & Eux & Hux); [lia|]. rewrite Eux. cbn [bind].
  destruct (vget_slice_col ux m _ i (m - 1) Hux) as (us & Eus & Hus); [lia|lia|]. rewrite Eus. cbn [bind].
  replace (m - 1 - i + 1)%nat with (m - i)%nat in Hus by lia.
  destruct (mhouseholder_spec us (m - i) _ 0 Hus) as (H & h & EH & HH & Hsym & Horth & _ & Hal & Hact & Hunr); [lia|lia| |].
  { exists (r0 - i)%nat. split; [lia|]. replace (i + (r0 - i))%nat with r0 by lia. exact Hnz. }
  rewrite EH. cbn [bind].
  destruct (mget_slice_spec a m n fa i (m - 1) i (n - 1) Ha) as (S1 & ES1 & HS1); [lia|lia|lia|lia|]. rewrite ES1. cbn [bind].
  replace (m - 1 - i + 1)%nat with (m - i)%nat in HS1 by lia. replace (n - 1 - i + 1)%nat with (n - i)%nat in HS1 by lia.
  destruct (mmul_spec H S1 (m - i) (m - i) (n - i) _ _ HH HS1) as (T1 & ET1 & HT1). rewrite ET1. cbn [bind].
  destruct (mset_slice_spec a m n fa T1 _ _ _ i i Ha HT1) as (a1 & Ea1 & Ha1); [lia|lia|]. rewrite Ea1. cbn [bind].
  destruct (emb_slice m i H h) as (Im & Um & EIm & EUm & HUm); [lia|exact HH|]. rewrite EIm. cbn [bind]. rewrite EUm. cbn [bind].
  destruct (mmul_spec u Um m m m _ _ Hu HUm) as (u1 & Eu1 & Hu1). rewrite Eu1. cbn [bind].
  replace (i <? n - 1)%nat with true by (symmetry; apply Nat.ltb_lt; lia).
  (* the new a is embf * a *)
  assert (Ha1' : is_mat a1 m n (mulf m (embf i h) fa)).
  { eapply is_mat_ext; [|exact Ha1]. intros r c Hr Hc. cbv beta. rewrite embf_mul by lia. leb.
    - unfold mulf. apply sumn_ext. intros l Hl. replace (i + (c - i))%nat with c by lia. reflexivity.
    - rewrite (Hlow r c) by lia. symmetry. apply (sumn_zero_ext R_RingLaws). intros l Hl. rewrite (Hlow (i + l)%nat c) by lia. simpl. ring.
    - reflexivity.
    - reflexivity. }
  set (fa1 := mulf m (embf i h) fa) in *.
  assert (Hcol : forall r, (r < m)%nat -> fa1 r i = if (r <? i)%nat then fa r i else if (r =? i)%nat then
      (if Rle_dec 0 (fa (i + 0)%nat i) then - enorm (m - i - 0) (fun l => fa (i + (0 + l))%nat i) else enorm (m - i - 0) (fun l => fa (i + (0 + l))%nat i)) else 0).
  { intros r Hr. unfold fa1. rewrite embf_mul by lia. destruct (Nat.leb_spec i r).
    - destruct (Nat.ltb_spec r i); [lia|]. rewrite (Hact (r - i)%nat) by lia. cbn [Nat.ltb Nat.leb]. destruct (Nat.eqb_spec (r - i) 0); destruct (Nat.eqb_spec r i); try lia; reflexivity.
    - destruct (Nat.ltb_spec r i); [reflexivity|lia]. }
  assert (Hrows : forall r c, (r < i)%nat -> (r < m)%nat -> fa1 r c = fa r c).
  { intros r c Hr Hrm. unfold fa1. rewrite embf_mul by lia. destruct (Nat.leb_spec i r); [lia|reflexivity]. }
  assert (Hold : forall r c, (r < m)%nat -> (c < i)%nat -> fa1 r c = fa r c).
  { intros r c Hr Hc. unfold fa1. rewrite embf_mul by lia. destruct (Nat.leb_spec i r); [|reflexivity].
    rewrite (Hlow r c) by lia. apply (sumn_zero_ext R_RingLaws). intros l Hl. rewrite (Hlow (i + l)%nat c) by lia. simpl. ring. }
  assert (Ou1 : orthogonal m (mulf m fu (embf i h))) by (apply (orthogonal_mul R_RingLaws); [exact Ou|apply embf_orthogonal; [lia|exact Horth]]).
  assert (HA1 : feq m n (mulf n (mulf m (mulf m fu (embf i h)) fa1) (trf fv)) A).
  { eapply feq_trans; [|exact HA]. apply feq_mulf; [|apply feq_refl]. unfold fa1.
    eapply feq_trans; [apply (feq_assoc R_RingLaws)|]. apply feq_mulf; [apply feq_refl|].
    eapply feq_trans; [apply feq_sym, (feq_assoc R_RingLaws)|].
    eapply feq_trans; [|apply (feq_id_l R_RingLaws)]. apply feq_mulf; [|apply feq_refl].
    eapply feq_trans; [|exact (proj1 (embf_orthogonal m i h ltac:(lia) Horth))]. apply feq_mulf; [apply feq_refl|].
    intros r c Hr Hc. rewrite trf_embf. unfold embf. leb; try reflexivity. apply (Hsym (r - i)%nat (c - i)%nat); lia. }
  destruct (mget_row_spec a1 m n _ i Ha1') as (vx & Evx & Hvx); [lia|]. rewrite Evx. cbn [bind].
  destruct (vtranspose_row vx n _ ltac:(lia) Hvx) as (vt & Evt & Hvt). rewrite Evt. cbn [bind].
  destruct (vget_slice_col vt n _ (i + 1) (n - 1) Hvt) as (vs & Evs & Hvs); [lia|lia|]. rewrite Evs. cbn [bind].
  replace (n - 1 - (i + 1) + 1)%nat with (n - (i + 1))%nat in Hvs by lia.
  (* the right factor: orthogonal, identity on the first i + 1 coordinates *)
  assert (HV : exists W K, (let! v_i := mhouseholder vs 0 in let! v_ni := mone n in mset_slice v_ni v_i (i + 1) (i + 1)) = Ret W /\
     is_mat W n n (embf (i + 1) K) /\ orthogonal n (embf (i + 1) K) /\ symmetric (n - (i + 1)) K /\
     (forall c, (0 < c < n - (i + 1))%nat -> sumn (n - (i + 1)) (fun l => fa1 i (i + 1 + l)%nat * K l c) = 0) /\
     ((forall c, (i < c < n)%nat -> fa1 i c = 0) \/ n = (i + 2)%nat -> forall r c, K r c = delta r c)).
  { assert (Hid : forall r c, embf (i + 1) delta r c = delta (T:=R) r c) by (intros; unfold embf, delta; leb; reflexivity).
    destruct (tail_dec (fun l => fa1 i (i + 1 + l)%nat) 0 (n - (i + 1))) as [(r1 & Hr1 & Hnz1)|Hz].
    - destruct (Nat.eq_dec (n - (i + 1)) 1) as [E1|E1].
      + rewrite E1 in Hvs. rewrite (mhouseholder_one vs _ Hvs).
        destruct (emb_one n (i + 1)) as (I1 & I & M & F1 & F2 & F3 & F4); [lia|].
        exists M, delta. rewrite F1. cbn [bind]. rewrite F2. cbn [bind]. split; [exact F3|].
        split. { eapply is_mat_ext; [|exact F4]. intros; symmetry; apply Hid. }
        split. { eapply orthogonal_ext; [|apply (orthogonal_delta R_RingLaws)]. intros r c _ _; symmetry; apply Hid. }
        split. { intros r c _ _. unfold trf, delta. rewrite Nat.eqb_sym. reflexivity. }
        split; [intros; lia|reflexivity].
      + destruct (mhouseholder_spec vs (n - (i + 1)) _ 0 Hvs) as (K & k & EK & HK & Ksym & Korth & _ & _ & Kact & _); [lia|lia| |].
        { exists r1. split; [lia|exact Hnz1]. }
        rewrite EK. cbn [bind].
        destruct (emb_slice n (i + 1) K k) as (I & W & EI & EW & HW); [lia|exact HK|]. rewrite EI. cbn [bind].
        exists W, k. split; [exact EW|]. split; [exact HW|]. split; [apply embf_orthogonal; [lia|exact Korth]|]. split; [exact Ksym|].
        split.
        * intros c Hc. rewrite (sumn_ext _ _ (fun l => k c l * fa1 i (i + 1 + l)%nat)).
          2:{ intros l Hl. rewrite (Ksym l c) by lia. unfold trf. ring. }
          rewrite (Kact c) by lia. destruct c; [lia|reflexivity].
        * intros [Hz|Hz]; exfalso; [apply Hnz1, Hz; lia|lia].
    - destruct (Nat.eq_dec (n - (i + 1)) 1) as [E1|E1];
      [rewrite E1 in Hvs; rewrite (mhouseholder_one vs _ Hvs)|rewrite (mhouseholder_zero vs (n - (i + 1)) _ 0 Hvs) by (auto; lia)].
      all: destruct (emb_one n (i + 1)) as (I1 & I & M & F1 & F2 & F3 & F4); [lia|].
      all: exists M, delta; rewrite F1; cbn [bind]; rewrite F2; cbn [bind]; split; [exact F3|].
      all: split; [eapply is_mat_ext; [|exact F4]; intros; symmetry; apply Hid|].
      all: split; [eapply orthogonal_ext; [|apply (orthogonal_delta R_RingLaws)]; intros r c _ _; symmetry; apply Hid|].
      all: split; [intros r c _ _; unfold trf, delta; rewrite Nat.eqb_sym; reflexivity|].
      all: split; [|reflexivity].
      all: intros c Hc; apply (sumn_zero_ext R_RingLaws); intros l Hl; rewrite (Hz l) by lia; simpl; ring. }
  destruct HV as (W & K & EW & HW & OW & Ksym & Kz & Kid).
  assert (EW' : forall {B} (k : matrix R -> outcome B), (let! v_i := mhouseholder vs 0 in let! v_ni := mone n in let! v_ni := mset_slice v_ni v_i (i + 1) (i + 1) in k v_ni) = k W).
  { intros B k. destruct (mhouseholder vs 0); [|discriminate]. cbn [bind] in *. destruct (mone n); [|discriminate]. cbn [bind] in *. rewrite EW. reflexivity. }
  rewrite EW'.
  destruct (mmul_spec a1 W m n n _ _ Ha1' HW) as (a2 & Ea2 & Ha2). rewrite Ea2. cbn [bind].
  destruct (mmul_spec v W n n n _ _ Hv HW) as (v1 & Ev1 & Hv1). rewrite Ev1. cbn [bind].
  eexists u1, a2, v1, _, _, _. split; [reflexivity|]. split; [exact Hu1|]. split; [exact Ha2|]. split; [exact Hv1|].
  set (fa2 := mulf n fa1 (embf (i + 1) K)).
  assert (Hleft : forall r c, (c <= i)%nat -> (c < n)%nat -> fa2 r c = fa1 r c).
  { intros r c Hc Hcn. unfold fa2. rewrite embf_mul_r by lia. destruct (Nat.leb_spec (i + 1) c); [lia|reflexivity]. }
  split; [split; [exact Ou1|split; [|split; [|split; [|split]]]]|split].
  - apply (orthogonal_mul R_RingLaws); assumption.
  - eapply feq_trans; [|exact HA1].
    (* (fu1 (fa1 W)) (fv W)^T = fu1 fa1 W W^T fv^T *)
    eapply feq_trans; [apply feq_mulf; [apply feq_sym, (feq_assoc R_RingLaws)|apply (feq_trf_mulf R_RingLaws)]|].
    eapply feq_trans; [apply feq_sym, (feq_assoc R_RingLaws)|].
    apply feq_mulf; [|apply feq_refl].
    eapply feq_trans; [apply (feq_assoc R_RingLaws)|].
    eapply feq_trans; [apply feq_mulf; [apply feq_refl|apply OW]|]. apply (feq_id_r R_RingLaws).
  - intros c Hc. rewrite Hleft by lia. destruct (Nat.eq_dec c i) as [->|Hne].
    + rewrite Hcol by lia. rewrite Nat.ltb_irrefl, Nat.eqb_refl. exact Hal.
    + rewrite Hold by lia. apply Hd. lia.
  - intros r c Hr Hc Hcr. rewrite Hleft by lia. destruct (Nat.eq_dec c i) as [->|Hne].
    + rewrite Hcol by lia. destruct (Nat.ltb_spec r i); [lia|]. destruct (Nat.eqb_spec r i); [lia|reflexivity].
    + rewrite Hold by lia. apply Hlow; lia.
  - intros r c Hr Hc Hrc. unfold fa2. rewrite embf_mul_r by lia.
    destruct (Nat.leb_spec (i + 1) c); [|rewrite Hrows by lia; apply Hup; lia].
    destruct (Nat.eq_dec r i) as [->|Hne].
    + apply Kz. lia.
    + apply (sumn_zero_ext R_RingLaws). intros l Hl. rewrite Hrows by lia. rewrite (Hup r (i + 1 + l)%nat) by lia. simpl. ring.
  - intros Hz1 Hz2 r c Hr Hc.
    assert (E1 : forall r c, (r < m)%nat -> fa1 r c = (if (r =? i)%nat then -1 else 1) * fa r c).
    { intros r' c' Hr'. unfold fa1. rewrite embf_mul by lia. destruct (Nat.leb_spec i r').
      - assert (Hh := Hunr ltac:(intros l Hl; apply Hz1; lia)).
        rewrite (sumn_ext _ _ (fun l => delta (r' - i)%nat l * ((if (r' =? i)%nat then -1 else 1) * fa (i + l)%nat c'))).
        + change Rmult with (@mul R R_ops) at 1. rewrite (sumn_delta_l R_RingLaws (m - i) (r' - i) (fun l => (if (r' =? i)%nat then -1 else 1) * fa (i + l)%nat c')) by lia.
          replace (i + (r' - i))%nat with r' by lia. reflexivity.
        + intros l Hl. rewrite Hh by lia. unfold delta. destruct (Nat.eqb_spec (r' - i) 0); destruct (Nat.eqb_spec l 0); destruct (Nat.eqb_spec r' i);
          destruct (Nat.eqb_spec (r' - i) l); try lia; cbn [andb]; simpl; ring.
      - destruct (Nat.eqb_spec r' i); [lia|ring]. }
    assert (HK : forall r c, K r c = delta r c).
    { apply Kid. left. intros c' Hc'. rewrite E1 by lia. rewrite Hz2 by lia. ring. }
    rewrite <- E1 by assumption. unfold fa2. rewrite embf_mul_r by lia. destruct (Nat.leb_spec (i + 1) c); [|reflexivity].
    rewrite (sumn_ext _ _ (fun l => fa1 r (i + 1 + l)%nat * delta l (c - (i + 1))%nat)) by (intros; rewrite HK; reflexivity).
    change Rmult with (@mul R R_ops) at 1. rewrite (sumn_delta_r R_RingLaws _ (c - (i + 1)) (fun l => fa1 r (i + 1 + l)%nat)) by lia.
    f_equal. lia.
  - intros En r c Hr Hc. transitivity (mulf n fv delta r c); [|apply (mulf_id_r R_RingLaws); assumption].
    apply mulf_ext; [reflexivity|]. intros l Hl. unfold embf. destruct ((i + 1 <=? l)%nat && (i + 1 <=? c)%nat) eqn:El; [|reflexivity].
    apply andb_true_iff in El. destruct El as [El1 El2]. apply Nat.leb_le in El1, El2.
    rewrite (Kid (or_intror En)). unfold delta. leb; reflexivity.
Qed.

Lemma bidiag_step_panic m n i u a v fa : (n <= m)%nat -> (i < n - 1)%nat -> is_mat a m n fa ->
  (forall r, (i <= r < m)%nat -> fa r i = 0) -> bidiag_step m n i (u, a, v) = Panic.
Proof.
  intros Hmn Hi Ha Hz. unfold bidiag_step.
  destruct (mget_column_spec a m n fa i Ha) as (ux & Eux & Hux); [lia|]. rewrite Eux. cbn [bind].
  destruct (vget_slice_col ux m _ i (m - 1) Hux) as (us & Eus & Hus); [lia|lia|]. rewrite Eus. cbn [bind].
  replace (m - 1 - i + 1)%nat with (m - i)%nat in Hus by lia.
  rewrite (mhouseholder_zero us (m - i) _ 0 Hus) by (try (intros; apply Hz); lia).
  destruct (mone_spec (T:=R) 1) as (I & EI & HI). rewrite EI. cbn [bind].
  destruct (mget_slice_spec a m n fa i (m - 1) i (n - 1) Ha) as (S1 & ES1 & HS1); [lia|lia|lia|lia|]. rewrite ES1. cbn [bind].
  rewrite mmul_panic; [reflexivity|]. rewrite (is_mat_cols _ _ _ _ HI), (is_mat_rows _ _ _ _ HS1). lia.
Qed.

Lemma bidiag_clean_ok m n (a : matrix R) fa : is_mat a m n fa ->
  exists a', bidiag_clean m n a = Ret a' /\ is_mat a' m n (fun i k => if (k =? i)%nat || (k =? i + 1)%nat then fa i k else 0).
Proof.
  intros Ha. unfold bidiag_clean.
  destruct (for_loop_ind (fun i a => is_mat a m n (fun r c => if (r <? i)%nat && negb ((c =? r)%nat || (c =? r + 1)%nat) then 0 else fa r c))
    (fun i a => for_loop 0 n (fun k a => if negb (k =? i)%nat && negb (k =? i + 1)%nat then mset a i k zero else Ret a) a) 0 m a) as (a' & E & H').
  - lia.
  - eapply is_mat_ext; [|exact Ha]. intros; reflexivity.
  - intros i b Hi Hb.
    destruct (for_loop_ind (fun k a => is_mat a m n (fun r c => if ((r <? i)%nat || (r =? i)%nat && (c <? k)%nat) && negb ((c =? r)%nat || (c =? r + 1)%nat) then 0 else fa r c))
      (fun k a => if negb (k =? i)%nat && negb (k =? i + 1)%nat then mset a i k zero else Ret a) 0 n b) as (b' & Eb & Hb').
    + lia.
    + eapply is_mat_ext; [|exact Hb]. intros r c Hr Hc. cbv beta. destruct (r <? i)%nat; destruct (r =? i)%nat; reflexivity.
    + intros k c Hk Hc. destruct (negb (k =? i)%nat && negb (k =? i + 1)%nat) eqn:Ek.
      * destruct (mset_spec c m n _ i k zero Hc) as (c' & Ec & Hc'); [lia|lia|]. exists c'. split; [exact Ec|].
        eapply is_mat_ext; [|exact Hc']. intros r q Hr Hq. cbv beta. unfold fupd.
        apply andb_true_iff in Ek. destruct Ek as [Ek1 Ek2]. apply negb_true_iff in Ek1, Ek2. apply Nat.eqb_neq in Ek1, Ek2.
        leb; cbn [orb andb negb]; try reflexivity.
      * exists c. split; [reflexivity|]. eapply is_mat_ext; [|exact Hc]. intros r q Hr Hq. cbv beta.
        apply andb_false_iff in Ek. rewrite !negb_false_iff, !Nat.eqb_eq in Ek.
        leb; cbn [orb andb negb]; try reflexivity; try (exfalso; lia).
    + exists b'. split; [exact Eb|]. eapply is_mat_ext; [|exact Hb']. intros r c Hr Hc. cbv beta. leb; cbn [orb andb negb]; reflexivity.
  - exists a'. split; [exact E|]. eapply is_mat_ext; [|exact H']. intros r c Hr Hc. cbv beta. leb; cbn [orb andb negb]; try reflexivity.
Qed.

Lemma bd_init m n A : bd_inv m n A 0 delta A delta.
Proof.
  split; [apply (orthogonal_delta R_RingLaws)|]. split; [apply (orthogonal_delta R_RingLaws)|].
  split; [|repeat split; intros; lia].
  eapply feq_trans; [apply feq_mulf; [apply (feq_id_l R_RingLaws)|]|apply (feq_id_r R_RingLaws)].
  intros r c _ _. unfold trf, delta. rewrite Nat.eqb_sym. reflexivity.
Qed.

Lemma bidiag_spec (A : matrix R) m n a U B V : is_mat A m n a -> householder_bidiag A = Ret (U, B, V) ->
  (1 <= n <= m)%nat /\
  exists fu fa fv, is_mat U m m fu /\ is_mat V n n fv /\ bd_inv m n a (n - 1) fu fa fv /\
    is_mat B m n (fun i k => if (k =? i)%nat || (k =? i + 1)%nat then fa i k else 0).
Proof.
  intros HA E. unfold householder_bidiag in E. rewrite (is_mat_rows _ _ _ _ HA), (is_mat_cols _ _ _ _ HA) in E.
  destruct (Nat.ltb_spec m n); [discriminate|]. cbn [negb rassert bind] in E.
  destruct (mone_spec (T:=R) m) as (Im & EIm & HIm). destruct (mone_spec (T:=R) n) as (In & EIn & HIn).
  rewrite EIm in E. cbn [bind] in E. rewrite EIn in E. cbn [bind] in E.
  unfold usub in E. destruct (Nat.leb_spec 1 n); [|discriminate]. cbn [bind] in E. split; [lia|].
  destruct (for_loop 0 (n - 1) (bidiag_step m n) (Im, A, In)) as [[[u1 a1] v1]|] eqn:EL; [|discriminate]. cbn [bind] in E.
  assert (HL := for_loop_inv (fun i st => let '(u, a', v) := st in exists fu fa fv, is_mat u m m fu /\ is_mat a' m n fa /\ is_mat v n n fv /\ bd_inv m n a i fu fa fv)
    _ _ _ _ _ EL ltac:(lia)). cbv beta iota in HL.
  destruct HL as (fu & fa & fv & Hu & Ha & Hv & Hinv).
  - exists delta, a, delta. split; [exact HIm|]. split; [exact HA|]. split; [exact HIn|]. apply bd_init.
  - intros i [[u2 a2] v2] [[u3 a3] v3] Hi (fu & fa & fv & Hu & Ha & Hv & Hinv) Es.
    destruct (tail_dec (fun r => fa r i) i m) as [Hnz|Hz].
    + destruct (bidiag_step_ok m n a i u2 a2 v2 fu fa fv) as (u4 & a4 & v4 & fu4 & fa4 & fv4 & E4 & F1 & F2 & F3 & F4 & _); auto; [lia|].
      rewrite E4 in Es. injection Es as <- <- <-. exists fu4, fa4, fv4. auto.
    + rewrite (bidiag_step_panic m n i u2 a2 v2 fa) in Es by (auto; lia). discriminate.
  - destruct (bidiag_clean_ok m n a1 fa Ha) as (b & Eb & Hb). rewrite Eb in E. cbn [bind] in E. injection E as <- <- <-.
    exists fu, fa, fv. auto.
Qed.

(** Square: the clean-up writes zeros over zeros. *)
Lemma bidiag_square (A : matrix R) n a U B V : is_mat A n n a -> householder_bidiag A = Ret (U, B, V) ->
  (1 <= n)%nat /\ exists fu fb fv, is_mat U n n fu /\ is_mat B n n fb /\ is_mat V n n fv /\ orthogonal n fu /\ orthogonal n fv /\ bidiagonal n n fb /\
    feq n n (mulf n (mulf n fu fb) (trf fv)) a /\ (forall c, (c + 1 < n)%nat -> fb c c <> 0).
Proof.
  intros HA E. destruct (bidiag_spec A n n a U B V HA E) as (Hn & fu & fa & fv & HU & HV & (Ou & Ov & Hf & Hd & Hlow & Hup) & HB).
  split; [lia|]. exists fu, fa, fv. split; [exact HU|].
  assert (Hbd : bidiagonal n n fa).
  { intros r c Hr Hc [Hrc|Hrc]; [apply Hlow; lia|apply Hup; lia]. }
  split. { eapply is_mat_ext; [|exact HB]. intros r c Hr Hc. cbv beta. leb; cbn [orb]; try reflexivity. symmetry. apply Hbd; lia. }
  split; [exact HV|]. split; [exact Ou|]. split; [exact Ov|]. split; [exact Hbd|]. split; [exact Hf|]. intros c Hc. apply Hd. lia.
Qed.

(** Injective matrices are bidiagonalised. *)
Fixpoint ker_coef (fa : nat -> nat -> R) (i d : nat) : R :=
  match d with 0%nat => 1 | S d' => - (fa (i - d) (i - d'))%nat / fa (i - d)%nat (i - d)%nat * ker_coef fa i d' end.
Definition ker_vec (fa : nat -> nat -> R) (i : nat) : nat -> R := fun c => if (c <=? i)%nat then ker_coef fa i (i - c) else 0.

Lemma ker_vec_spec m n A i fu fa fv : (i < n)%nat -> (n <= m)%nat -> bd_inv m n A i fu fa fv -> (forall r, (i <= r < m)%nat -> fa r i = 0) ->
  forall r, (r < m)%nat -> sumn n (fun c => fa r c * ker_vec fa i c) = 0.
Proof.
  intros Hi Hmn (Ou & Ov & HA & Hd & Hlow & Hup) Hz r Hr.
  destruct (Nat.lt_ge_cases r i) as [Hri|Hri].
  - rewrite (sumn_block2 n r (fun c => fa r c * ker_vec fa i c)); [|lia|].
    2:{ intros c Hc Hne. destruct (Nat.lt_ge_cases c r); [rewrite (Hlow r c) by lia|rewrite (Hup r c) by lia]; ring. }
    unfold ker_vec. destruct (Nat.leb_spec r i); [|lia]. destruct (Nat.leb_spec (r + 1) i); [|lia].
    replace (i - r)%nat with (S (i - (r + 1))) by lia. cbn [ker_coef].
    replace (i - S (i - (r + 1)))%nat with r by lia. replace (i - (i - (r + 1)))%nat with (r + 1)%nat by lia.
    field. apply Hd. lia.
  - apply (sumn_zero_ext R_RingLaws). intros c Hc. unfold ker_vec. destruct (Nat.leb_spec c i); [|simpl; ring].
    destruct (Nat.eq_dec c i) as [->|]; [rewrite (Hz r) by lia|rewrite (Hlow r c) by lia]; simpl; ring.
Qed.

Lemma mulf_col m k f g x r : sumn k (fun c => mulf m f g r c * x c) = sumn m (fun l => f r l * sumn k (fun c => g l c * x c)).
Proof.
  rewrite (sumn_ext m _ (fun l => sumn k (fun c => f r l * (g l c * x c)))) by (intros; rewrite <- sumn_R_mul_l; reflexivity).
  rewrite <- sumn_R_swap. apply sumn_ext. intros c Hc. unfold mulf. rewrite <- sumn_R_mul_r. apply sumn_ext. intros l Hl. simpl. ring.
Qed.

Lemma bidiag_returns (A : matrix R) m n a : is_mat A m n a -> (1 <= n <= m)%nat ->
  (forall x, (forall r, (r < m)%nat -> sumn n (fun c => a r c * x c) = 0) -> forall c, (c < n)%nat -> x c = 0) ->
  exists U B V, householder_bidiag A = Ret (U, B, V).
Proof.
  intros HA Hn Hinj. unfold householder_bidiag. rewrite (is_mat_rows _ _ _ _ HA), (is_mat_cols _ _ _ _ HA).
  destruct (Nat.ltb_spec m n); [lia|]. cbn [negb rassert bind].
  destruct (mone_spec (T:=R) m) as (Im & EIm & HIm). destruct (mone_spec (T:=R) n) as (In & EIn & HIn).
  rewrite EIm. cbn [bind]. rewrite EIn. cbn [bind]. rewrite usub_ok by lia. cbn [bind].
  destruct (for_loop_ind (fun i st => let '(u, a', v) := st in exists fu fa fv, is_mat u m m fu /\ is_mat a' m n fa /\ is_mat v n n fv /\ bd_inv m n a i fu fa fv)
    (bidiag_step m n) 0 (n - 1) (Im, A, In)) as ([[u1 a1] v1] & EL & fu & fa & fv & Hu & Ha & Hv & Hinv).
  - lia.
  - exists delta, a, delta. split; [exact HIm|]. split; [exact HA|]. split; [exact HIn|]. apply bd_init.
  - intros i [[u2 a2] v2] Hi (fu & fa & fv & Hu & Ha & Hv & Hinv).
    destruct (tail_dec (fun r => fa r i) i m) as [Hnz|Hz].
    + destruct (bidiag_step_ok m n a i u2 a2 v2 fu fa fv) as (u4 & a4 & v4 & fu4 & fa4 & fv4 & E4 & F1 & F2 & F3 & F4 & _); auto; [lia|].
      exists (u4, a4, v4). split; [exact E4|]. exists fu4, fa4, fv4. auto.
    + exfalso.
      set (w := ker_vec fa i). set (x := fun c => sumn n (fun l => fv c l * w l)).
      destruct Hinv as (Ou & Ov & HA' & Hd & Hlow & Hup).
      assert (Hw : forall r, (r < m)%nat -> sumn n (fun c => fa r c * w c) = 0) by (apply (ker_vec_spec m n a i fu fa fv); auto; try lia; repeat split; try apply Ou; try apply Ov; assumption).
      (* fv^T x = w *)
      assert (Hvx : forall c, (c < n)%nat -> sumn n (fun l => trf fv c l * x l) = w c).
      { intros c Hc. unfold x. rewrite <- (mulf_col n n (trf fv) fv w c).
        rewrite (sumn_ext n _ (fun l => delta c l * w l)) by (intros l Hl; rewrite (proj2 Ov c l Hc Hl); reflexivity).
        exact (sumn_delta_l R_RingLaws n c w Hc). }
      assert (Hx : forall c, (c < n)%nat -> x c = 0).
      { apply Hinj. intros r Hr. rewrite (sumn_ext n _ (fun c => mulf n (mulf m fu fa) (trf fv) r c * x c)) by (intros c Hc; rewrite (HA' r c Hr Hc); reflexivity).
        rewrite mulf_col. rewrite (sumn_ext n _ (fun l => mulf m fu fa r l * w l)) by (intros l Hl; rewrite Hvx by assumption; reflexivity).
        rewrite mulf_col. apply (sumn_zero_ext R_RingLaws). intros l Hl. rewrite Hw by assumption. simpl. ring. }
      assert (Hwi : w i = 0). { rewrite <- (Hvx i) by lia. apply (sumn_zero_ext R_RingLaws). intros l Hl. rewrite Hx by assumption. simpl. ring. }
      unfold w, ker_vec in Hwi. destruct (Nat.leb_spec i i); [|lia]. rewrite Nat.sub_diag in Hwi. simpl in Hwi. lra.
  - rewrite EL. cbn [bind]. destruct (bidiag_clean_ok m n a1 fa Ha) as (b & Eb & Hb). rewrite Eb. cbn [bind]. eauto.
Qed.
