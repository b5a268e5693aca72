(** Householder reflections and the Hessenberg decomposition over the reals. *)
From Coq Require Import Arith List Bool Lia Ring Reals Lra Psatz.
From Verif Require Import Outcome Scalar Matrix_model Transpose_model Vector_model LU_model Decomp_model Matrix_spec LU_spec
  Decomp_spec Matrix_proofs Transpose_proofs Vector_proofs Sums MatProps_proofs VecProps_proofs LUProps_proofs Chol_proofs Norm_proofs
  Ortho_proofs RealOps.
Import ListNotations.
Local Open Scope R_scope.

Definition reff (w : nat -> R) : nat -> nat -> R := fun r c => delta r c - 2 * (w r * w c).

Lemma reff_act m w x r : (r < m)%nat -> sumn m (fun c => reff w r c * x c) = x r - 2 * w r * sumn m (fun c => w c * x c).
Proof.
  intros Hr. unfold reff.
  rewrite (sumn_ext m _ (fun c => delta r c * x c + (- (2 * w r)) * (w c * x c))) by (intros; ring).
  rewrite sumn_R_add, sumn_R_mul_l. pose proof (sumn_delta_l R_RingLaws m r x Hr) as E. simpl in E.
  change (@mul R R_ops) with Rmult in E. rewrite E. ring.
Qed.

Lemma reff_symmetric m w : symmetric m (reff w).
Proof. intros i j Hi Hj. unfold trf, reff, delta. rewrite (Nat.eqb_sym j i). ring. Qed.

Lemma reff_orthogonal m w : sumsq m w = 1 -> orthogonal m (reff w).
Proof.
  intros H.
  assert (E : feq m m (mulf m (reff w) (reff w)) delta).
  { intros i j Hi Hj. unfold mulf. etransitivity; [exact (reff_act m w (fun l => reff w l j) i Hi)|].
    rewrite (sumn_ext m _ (fun c => reff w j c * w c)).
    2:{ intros c Hc. rewrite (reff_symmetric m w c j Hc Hj). unfold trf. ring. }
    rewrite (reff_act m w w j Hj). fold (sumsq m w). rewrite H. unfold reff. ring. }
  split.
  - eapply feq_trans; [|exact E]. apply feq_mulf; [apply feq_refl|apply feq_sym, reff_symmetric].
  - eapply feq_trans; [|exact E]. apply feq_mulf; [apply feq_sym, reff_symmetric|apply feq_refl].
Qed.

(** The algebra behind the choice of w. *)
Lemma householder_algebra d0 al S x0 : al <> 0 -> al * al = d0 * d0 + S -> x0 * x0 = 1 / 2 * (1 - d0 / al) -> x0 <> 0 ->
  x0 * x0 + S / (4 * (al * x0) * (al * x0)) = 1 /\
  x0 * d0 + S / (2 * (- al * x0)) = - al * x0 /\
  d0 - 2 * x0 * (- al * x0) = al.
Proof.
  intros Ha HS Hx Hx0.
  assert (Hx2 : 2 * (x0 * x0) * al = al - d0) by (rewrite Hx; field; assumption).
  assert (HS' : S = (al - d0) * (al + d0)) by nra.
  split; [|split].
  - apply (Rmult_eq_reg_r (4 * (al * x0) * (al * x0))); [|repeat apply Rmult_integral_contrapositive_currified; auto; lra].
    rewrite Rmult_plus_distr_r. unfold Rdiv at 1. rewrite Rmult_assoc with (r1 := S), Rinv_l; [|repeat apply Rmult_integral_contrapositive_currified; auto; lra].
    rewrite HS'. replace (x0 * x0 * (4 * (al * x0) * (al * x0))) with ((2 * (x0 * x0) * al) * (2 * (x0 * x0) * al)) by ring.
    replace (1 * (4 * (al * x0) * (al * x0))) with (2 * al * (2 * (x0 * x0) * al)) by ring. rewrite Hx2. ring.
  - apply (Rmult_eq_reg_r (2 * (- al * x0))); [|repeat apply Rmult_integral_contrapositive_currified; auto; lra].
    rewrite Rmult_plus_distr_r. unfold Rdiv. rewrite Rmult_assoc with (r1 := S), Rinv_l; [|repeat apply Rmult_integral_contrapositive_currified; auto; lra].
    rewrite HS'. replace (x0 * d0 * (2 * (- al * x0))) with (- d0 * (2 * (x0 * x0) * al)) by ring.
    replace (- al * x0 * (2 * (- al * x0))) with (al * (2 * (x0 * x0) * al)) by ring. rewrite Hx2. ring.
  - replace (d0 - 2 * x0 * (- al * x0)) with (d0 + 2 * (x0 * x0) * al) by ring. rewrite Hx2. ring.
Qed.

Lemma mhouseholder_spec (v : vector R) m f k : is_col v m f -> (k < m)%nat -> (2 <= m)%nat ->
  (exists i, (k <= i < m)%nat /\ f i <> 0) ->
  exists H h, mhouseholder v k = Ret H /\ is_mat H m m h /\ symmetric m h /\ orthogonal m h /\
    (forall r c, (r < m)%nat -> (c < m)%nat -> (r < k)%nat \/ (c < k)%nat -> h r c = delta r c) /\
    let al := if Rle_dec 0 (f k) then - enorm (m - k) (fun i => f (k + i)%nat) else enorm (m - k) (fun i => f (k + i)%nat) in
    al <> 0 /\
    (forall r, (r < m)%nat -> sumn m (fun c => h r c * f c) = if (r <? k)%nat then f r else if (r =? k)%nat then al else 0) /\
    ((forall i, (k < i < m)%nat -> f i = 0) -> forall r c, (r < m)%nat -> (c < m)%nat -> h r c = if (r =? k)%nat && (c =? k)%nat then -1 else delta r c).
Proof.
  intros Hv Hk Hm Hnz. destruct (is_mat_dim _ _ _ _ Hv) as [ER EC]. unfold mhouseholder. rewrite ER, EC.
  replace (m <=? k)%nat with false by (symmetry; apply Nat.leb_gt; lia).
  replace (m =? 0)%nat with false by (symmetry; apply Nat.eqb_neq; lia).
  replace (m =? 1)%nat with false by (symmetry; apply Nat.eqb_neq; lia). cbn [negb rassert bind].
  rewrite usub_ok by lia. cbn [bind].
  destruct (vget_slice_col v m f k (m - 1) Hv) as (d & Ed & Hd); [lia|lia|]. rewrite Ed. cbn [bind].
  replace (m - 1 - k + 1)%nat with (m - k)%nat in Hd by lia.
  rewrite (col_get d (m - k) _ 0 Hd) by lia. cbn [bind]. rewrite Nat.add_0_r.
  change (@two R R_pops) with 2. rewrite (vp_norm_2 d (m - k) _ (or_introl Hd)). cbn [bind].
  set (N := enorm (m - k) (fun i => f (k + i)%nat)).
  assert (HN : 0 < N).
  { destruct (enorm_nonneg (m - k) (fun i => f (k + i)%nat)) as [H|H]; [exact H|]. exfalso.
    symmetry in H. rewrite enorm_zero in H. destruct Hnz as (i & Hi & Hfi). apply Hfi.
    rewrite <- (H (i - k)%nat) by lia. f_equal. lia. }
  set (al := if Rle_dec 0 (f k) then - N else N).
  replace (if leb zero (f k) then neg N else N) with al.
  2:{ unfold al. simpl. unfold R_leb. destruct (Rle_dec 0 (f k)); reflexivity. }
  assert (Hal : al <> 0) by (unfold al; destruct (Rle_dec 0 (f k)); lra).
  replace (eqb al zero) with false.
  2:{ symmetry. destruct (eqb al zero) eqn:E; [|reflexivity]. apply R_eqb_true in E. contradiction. }
  rewrite (is_mat_rows _ _ _ _ Hd).
  set (x0 := sqrt (1 / 2 * (1 - f k / al))).
  assert (Hq : 0 < 1 / 2 * (1 - f k / al)).
  { assert (f k / al <= 0); [|lra]. unfold al. destruct (Rle_dec 0 (f k)).
    - replace (f k / - N) with (- (f k / N)) by (field; lra). assert (0 <= f k / N); [|lra]. apply Rmult_le_pos; [assumption|]. left. apply Rinv_0_lt_compat. assumption.
    - replace (f k / N) with (- (- f k / N)) by (field; lra). assert (0 <= - f k / N); [|lra]. apply Rmult_le_pos; [lra|]. left. apply Rinv_0_lt_compat. assumption. }
  assert (Hx0 : x0 * x0 = 1 / 2 * (1 - f k / al)) by (apply sqrt_sqrt; lra).
  assert (Hx0n : x0 <> 0) by (intro E; rewrite E in Hx0; lra).
  replace (tpow (mul half (sub one (div (f k) al))) half) with x0 by (symmetry; apply R_pow_half; left; exact Hq).
  destruct (col_set (vzero (m - k)) (m - k) _ 0 x0 (vzero_spec (m - k))) as (w0 & Ew0 & Hw0); [lia|].
  rewrite Ew0. cbn [bind]. rewrite (col_get w0 (m - k) _ 0 Hw0) by lia. unfold upd1 at 1. rewrite Nat.eqb_refl. cbn [bind].
  set (p := - al * x0). change (mul (neg al) x0) with p.
  rewrite usub_ok by lia. cbn [bind].
  set (wt := fun i => if (i =? 0)%nat then x0 else f (k + i)%nat / (2 * p)).
  assert (Hw1 : exists w1, (if (1 <=? m - k - 1)%nat
     then let! t := vget_slice d 1 (m - k - 1) in vset_slice w0 (vapply (fun e => div e (mul 2 p)) t) 1 else Ret w0) = Ret w1 /\ is_col w1 (m - k) wt).
  { destruct (Nat.leb_spec 1 (m - k - 1)).
    - destruct (vget_slice_col d (m - k) _ 1 (m - k - 1) Hd) as (t & Et & Ht); [lia|lia|]. rewrite Et. cbn [bind].
      pose proof (mapply_spec (fun e => div e (mul 2 p)) t _ _ _ Ht) as Ht2.
      destruct (vset_slice_col w0 (m - k) _ (vapply (fun e => div e (mul 2 p)) t) (m - k - 1 - 1 + 1) (fun i => div (f (k + (1 + i))%nat) (mul 2 p)) 1 Hw0 Ht2) as (w1 & E1 & H1); [lia|].
      exists w1. split; [exact E1|]. eapply col_ext; [|exact H1]. intros i Hi. unfold wt, upd1. cbv beta.
      destruct (Nat.eqb_spec i 0).
      + subst i. reflexivity.
      + replace ((1 <=? i) && (i <? 1 + (m - k - 1 - 1 + 1)))%nat with true.
        * replace (k + (1 + (i - 1)))%nat with (k + i)%nat by lia. reflexivity.
        * symmetry. apply andb_true_iff. split; [apply Nat.leb_le; lia|apply Nat.ltb_lt; lia].
    - exists w0. split; [reflexivity|]. eapply col_ext; [|exact Hw0]. intros i Hi. unfold wt, upd1.
      destruct (Nat.eqb_spec i 0); [reflexivity|lia]. }
  destruct Hw1 as (w1 & Ew1 & Hw1). rewrite Ew1. cbn [bind].
  destruct (vset_slice_col (vzero m) m _ w1 (m - k) wt k (vzero_spec m) Hw1) as (w & Ew & Hw); [lia|].
  rewrite Ew. cbn [bind].
  set (wf := fun i => if (i <? k)%nat then 0 else wt (i - k)%nat).
  assert (Hwf : is_col w m wf).
  { eapply col_ext; [|exact Hw]. intros i Hi. unfold wf. destruct (Nat.leb_spec k i); destruct (Nat.ltb_spec i k); try lia; cbn [andb].
    - replace (i <? k + (m - k))%nat with true by (symmetry; apply Nat.ltb_lt; lia). reflexivity.
    - reflexivity. }
  destruct (mone_spec (T:=R) m) as (I & EI & HI). rewrite EI. cbn [bind].
  destruct (vdyadp_spec w w m m wf wf Hwf Hwf) as (D & ED & HD). rewrite ED. cbn [bind].
  pose proof (mapply_spec (fun x => mul x 2) D m m _ HD) as HD2.
  destruct (msub_spec I (mmul_scalar D 2) m m _ _ HI HD2) as (H & EH & HH).
  exists H, (reff wf). split; [exact EH|]. split.
  { eapply is_mat_ext; [|exact HH]. intros i j Hi Hj. unfold reff. simpl. ring. }
  split; [apply reff_symmetric|].
  (* the two sums *)
  assert (Hsum : forall g, sumn m (fun c => wf c * g c) = x0 * g k + sumn (m - k - 1) (fun i => f (k + S i)%nat / (2 * p) * g (k + S i)%nat)).
  { intros g. replace m with (k + (m - k))%nat at 1 by lia. rewrite (sumn_split R_RingLaws).
    rewrite (sumn_zero_ext R_RingLaws k).
    2:{ intros i Hi. unfold wf. replace (i <? k)%nat with true by (symmetry; apply Nat.ltb_lt; lia). simpl. ring. }
    replace (m - k)%nat with (S (m - k - 1)) at 1 by lia. rewrite (sumn_first R_RingLaws).
    change (@add R R_ops) with Rplus. change (@zero R R_ops) with 0. rewrite Rplus_0_l. f_equal.
    - unfold wf. rewrite Nat.add_0_r, Nat.ltb_irrefl, Nat.sub_diag. reflexivity.
    - apply sumn_ext. intros i Hi. unfold wf. replace (k + S i <? k)%nat with false by (symmetry; apply Nat.ltb_ge; lia).
      replace (k + S i - k)%nat with (S i) by lia. reflexivity. }
  set (S := sumn (m - k - 1) (fun i => f (k + Datatypes.S i)%nat * f (k + Datatypes.S i)%nat)).
  assert (HS : al * al = f k * f k + S).
  { transitivity (N * N). { unfold al. destruct (Rle_dec 0 (f k)); ring. }
    unfold N. rewrite enorm_sq. unfold sumsq. replace (m - k)%nat with (Datatypes.S (m - k - 1)) at 1 by lia.
    rewrite (sumn_first R_RingLaws). rewrite Nat.add_0_r. reflexivity. }
  assert (Hp : p <> 0) by (unfold p; apply Rmult_integral_contrapositive_currified; auto; lra).
  destruct (householder_algebra (f k) al S x0 Hal HS Hx0 Hx0n) as (A1 & A2 & A3).
  assert (Hwf2 : sumn m (fun c => wf c * f c) = p).
  { rewrite Hsum. rewrite (sumn_ext _ _ (fun i => / (2 * p) * (f (k + Datatypes.S i)%nat * f (k + Datatypes.S i)%nat))) by (intros; unfold Rdiv; ring).
    rewrite sumn_R_mul_l. fold S. transitivity (x0 * f k + S / (2 * (- al * x0))); [|exact A2]. unfold p. unfold Rdiv. ring. }
  assert (Hww : sumsq m wf = 1).
  { unfold sumsq. rewrite Hsum. unfold wf at 1. rewrite Nat.ltb_irrefl, Nat.sub_diag. unfold wt at 1. cbn [Nat.eqb].
    rewrite (sumn_ext _ _ (fun i => / (4 * (al * x0) * (al * x0)) * (f (k + Datatypes.S i)%nat * f (k + Datatypes.S i)%nat))).
    - rewrite sumn_R_mul_l. fold S. transitivity (x0 * x0 + S / (4 * (al * x0) * (al * x0))); [|exact A1]. unfold Rdiv. ring.
    - intros i Hi. unfold wf. replace (k + Datatypes.S i <? k)%nat with false by (symmetry; apply Nat.ltb_ge; lia).
      replace (k + Datatypes.S i - k)%nat with (Datatypes.S i) by lia. unfold wt. cbn [Nat.eqb]. unfold p. field. auto. }
  split; [apply reff_orthogonal; exact Hww|].
  split.
  { intros r c Hr Hc Hrc. unfold reff. assert (Z : forall i, (i < k)%nat -> wf i = 0).
    { intros i Hi. unfold wf. replace (i <? k)%nat with true by (symmetry; apply Nat.ltb_lt; lia). reflexivity. }
    destruct Hrc as [Hrc|Hrc]; rewrite (Z _ Hrc); ring. }
  split; [exact Hal|].
  split.
  { intros r Hr. rewrite (reff_act m wf f r Hr), Hwf2.
    unfold wf. destruct (Nat.ltb_spec r k); [ring|]. unfold wt. destruct (Nat.eqb_spec r k).
    - subst r. rewrite Nat.sub_diag. cbn [Nat.eqb]. exact A3.
    - destruct (Nat.eqb_spec (r - k) 0); [lia|]. replace (k + (r - k))%nat with r by lia. field. assumption. }
  intros Hz. assert (HS0 : S = 0).
  { apply (sumn_zero_ext R_RingLaws). intros i Hi. rewrite (Hz (k + Datatypes.S i)%nat) by lia. simpl. ring. }
  assert (Hx1 : x0 * x0 = 1) by (rewrite <- A1, HS0; unfold Rdiv; ring).
  assert (Hwz : forall i, (i < m)%nat -> wf i = if (i =? k)%nat then x0 else 0).
  { intros i Hi. unfold wf. destruct (Nat.ltb_spec i k); destruct (Nat.eqb_spec i k); try lia; try reflexivity.
    - subst i. rewrite Nat.sub_diag. reflexivity.
    - unfold wt. destruct (Nat.eqb_spec (i - k) 0); [lia|]. replace (k + (i - k))%nat with i by lia. rewrite Hz by lia. unfold Rdiv. ring. }
  intros r c Hr Hc. unfold reff. rewrite (Hwz r Hr), (Hwz c Hc).
  destruct (Nat.eqb_spec r k); destruct (Nat.eqb_spec c k); cbn [andb]; try ring.
  subst r c. unfold delta. rewrite Nat.eqb_refl, Hx1. simpl. ring.
Qed.

(** A zero tail gives a 1 x 1 matrix. *)
Lemma mhouseholder_zero (v : vector R) m f k : is_col v m f -> (k < m)%nat -> (2 <= m)%nat ->
  (forall i, (k <= i < m)%nat -> f i = 0) -> mhouseholder v k = mone 1.
Proof.
  intros Hv Hk Hm Hz. destruct (is_mat_dim _ _ _ _ Hv) as [ER EC]. unfold mhouseholder. rewrite ER, EC.
  replace (m <=? k)%nat with false by (symmetry; apply Nat.leb_gt; lia).
  replace (m =? 0)%nat with false by (symmetry; apply Nat.eqb_neq; lia).
  replace (m =? 1)%nat with false by (symmetry; apply Nat.eqb_neq; lia). cbn [negb rassert bind].
  rewrite usub_ok by lia. cbn [bind].
  destruct (vget_slice_col v m f k (m - 1) Hv) as (d & Ed & Hd); [lia|lia|]. rewrite Ed. cbn [bind].
  replace (m - 1 - k + 1)%nat with (m - k)%nat in Hd by lia.
  rewrite (col_get d (m - k) _ 0 Hd) by lia. cbn [bind].
  change (@two R R_pops) with 2. rewrite (vp_norm_2 d (m - k) _ (or_introl Hd)). cbn [bind].
  assert (E : enorm (m - k) (fun i => f (k + i)%nat) = 0) by (apply enorm_zero; intros i Hi; apply Hz; lia).
  rewrite E. replace (eqb _ zero) with true; [reflexivity|]. symmetry. apply R_eqb_true.
  destruct (leb zero (f (k + 0)%nat)); simpl; ring.
Qed.

Lemma mhouseholder_one (v : vector R) f : is_col v 1 f -> mhouseholder v 0 = mone 1.
Proof. intros Hv. destruct (is_mat_dim _ _ _ _ Hv) as [ER EC]. unfold mhouseholder. rewrite ER. reflexivity. Qed.

Lemma mhouseholder_panic {T} {O : Ops T} {P : POps T} (v : vector T) k : (rows v <= k)%nat -> mhouseholder v k = Panic.
Proof. intros H. unfold mhouseholder. replace (rows v <=? k)%nat with true by (symmetry; apply Nat.leb_le; assumption). reflexivity. Qed.

Lemma tail_dec (f : nat -> R) k m : (exists i, (k <= i < m)%nat /\ f i <> 0) \/ (forall i, (k <= i < m)%nat -> f i = 0).
Proof.
  induction m as [|m IH].
  - right. intros; lia.
  - destruct IH as [(i & Hi & Hf)|H]; [left; exists i; split; [lia|assumption]|].
    destruct (Nat.le_gt_cases k m); [|right; intros; lia].
    destruct (Req_dec (f m) 0).
    + right. intros i Hi. destruct (Nat.eq_dec i m) as [->|]; [assumption|apply H; lia].
    + left. exists m. split; [lia|assumption].
Qed.

(** ** Hessenberg *)

Definition hess_inv (n : nat) (a : nat -> nat -> R) (k : nat) (fq fh : nat -> nat -> R) : Prop :=
  orthogonal n fq /\ feq n n (mulf n fq a) (mulf n fh fq) /\
  (forall c, (c + 1 < k)%nat -> fh (c + 1)%nat c <> 0 /\ forall r, (c + 1 < r < n)%nat -> fh r c = 0).

Lemma hess_step_ok n a k q h fq fh : (1 <= k < n)%nat -> is_mat q n n fq -> is_mat h n n fh -> hess_inv n a k fq fh ->
  (exists i, (k <= i < n)%nat /\ fh i (k - 1)%nat <> 0) ->
  exists q' h' fq' fh', hess_step k (q, h) = Ret (q', h') /\ is_mat q' n n fq' /\ is_mat h' n n fh' /\ hess_inv n a (S k) fq' fh' /\
    ((forall i, (k < i < n)%nat -> fh i (k - 1)%nat = 0) ->
      forall r c, (r < n)%nat -> (c < n)%nat -> fh' r c = (if (r =? k)%nat then -1 else 1) * fh r c * (if (c =? k)%nat then -1 else 1)).
Proof.
  intros Hk Hq Hh (Ho & Hs & Hz) Hnz. unfold hess_step. cbn [fst snd]. rewrite usub_ok by lia. cbn [bind].
  destruct (mget_column_spec h n n fh (k - 1) Hh) as (v & Ev & Hv); [lia|]. rewrite Ev. cbn [bind].
  destruct (mhouseholder_spec v n _ k Hv) as (H & hf & EH & HH & Hsym & Horth & Hid & Hal & Hact & Hunr); [lia|lia|exact Hnz|].
  rewrite EH. cbn [bind].
  destruct (mmul_spec H h n n n _ _ HH Hh) as (h1 & Eh1 & Hh1). rewrite Eh1. cbn [bind].
  destruct (mmul_spec H q n n n _ _ HH Hq) as (q1 & Eq1 & Hq1). rewrite Eq1. cbn [bind].
  destruct (mtranspose_good H n n hf) as (Ht & EHt & HHt); [lia|lia|auto|exact HH|]. rewrite EHt. cbn [bind].
  destruct (mmul_spec h1 Ht n n n _ _ Hh1 HHt) as (h2 & Eh2 & Hh2). rewrite Eh2. cbn [bind].
  exists q1, h2, (mulf n hf fq), (mulf n (mulf n hf fh) (trf hf)). split; [reflexivity|].
  split; [exact Hq1|]. split; [exact Hh2|]. split; [split; [|split]|].
  - apply (orthogonal_mul R_RingLaws); assumption.
  - eapply feq_trans; [apply (feq_assoc R_RingLaws)|].
    eapply feq_trans; [apply feq_mulf; [apply feq_refl|exact Hs]|].
    apply feq_sym.
    eapply feq_trans; [apply (feq_assoc R_RingLaws)|].
    eapply feq_trans; [apply feq_mulf; [apply feq_refl|apply feq_sym, (feq_assoc R_RingLaws)]|].
    eapply feq_trans; [apply feq_mulf; [apply feq_refl|apply feq_mulf; [apply Horth|apply feq_refl]]|].
    eapply feq_trans; [apply feq_mulf; [apply feq_refl|apply (feq_id_l R_RingLaws)]|].
    apply (feq_assoc R_RingLaws).
  - (* columns below k are those of hf * fh *)
    assert (Hcol : forall r c, (r < n)%nat -> (c < k)%nat -> mulf n (mulf n hf fh) (trf hf) r c = mulf n hf fh r c).
    { intros r c Hr Hc. transitivity (mulf n (mulf n hf fh) delta r c).
      - apply mulf_ext; [reflexivity|]. intros l Hl. unfold trf. rewrite (Hid c l) by lia. unfold delta. rewrite Nat.eqb_sym. reflexivity.
      - apply (mulf_id_r R_RingLaws). lia. }
    intros c Hc. rewrite Hcol by lia.
    destruct (Nat.eq_dec c (k - 1)) as [->|Hne].
    + replace (k - 1 + 1)%nat with k by lia. split.
      * unfold mulf. change (@mul R R_ops) with Rmult. rewrite Hact by lia. rewrite Nat.ltb_irrefl, Nat.eqb_refl. exact Hal.
      * intros r Hr. rewrite Hcol by lia. unfold mulf. change (@mul R R_ops) with Rmult. rewrite Hact by lia.
        replace (r <? k)%nat with false by (symmetry; apply Nat.ltb_ge; lia).
        replace (r =? k)%nat with false by (symmetry; apply Nat.eqb_neq; lia). reflexivity.
    + destruct (Hz c ltac:(lia)) as [Hnz1 Hz1].
      assert (Hold : forall r, (r < n)%nat -> mulf n hf fh r c = fh r c).
      { intros r Hr. transitivity (mulf n delta fh r c).
        - unfold mulf. apply sumn_ext. intros l Hl. destruct (Nat.lt_ge_cases l k).
          + rewrite (Hid r l) by auto. reflexivity.
          + rewrite (Hz1 l) by lia. simpl. ring.
        - apply (mulf_id_l R_RingLaws). assumption. }
      rewrite Hold by lia. split; [assumption|]. intros r Hr. rewrite Hcol, Hold by lia. apply Hz1. lia.
  - intros Ht0. specialize (Hunr Ht0).
    assert (L1 : forall r c, (r < n)%nat -> (c < n)%nat -> mulf n hf fh r c = (if (r =? k)%nat then -1 else 1) * fh r c).
    { intros r c Hr Hc. unfold mulf. rewrite (sumn_single R_RingLaws n r) by
        (auto; intros i Hi Hir; rewrite (Hunr r i) by assumption; unfold delta; destruct (Nat.eqb_spec r k); destruct (Nat.eqb_spec i k); destruct (Nat.eqb_spec r i); try lia; simpl; ring).
      rewrite Hunr by assumption. unfold delta. rewrite Nat.eqb_refl. destruct (Nat.eqb_spec r k); cbn [andb]; simpl; ring. }
    intros r c Hr Hc. unfold mulf at 1. rewrite (sumn_single R_RingLaws n c) by
        (auto; intros i Hi Hir; unfold trf; rewrite (Hunr c i) by assumption; unfold delta; destruct (Nat.eqb_spec c k); destruct (Nat.eqb_spec i k); destruct (Nat.eqb_spec c i); try lia; simpl; ring).
    rewrite L1 by assumption. unfold trf. rewrite Hunr by assumption. unfold delta. rewrite Nat.eqb_refl.
    destruct (Nat.eqb_spec c k); cbn [andb]; simpl; ring.
Qed.

Lemma hess_step_panic n k q h fh : (1 <= k < n)%nat -> is_mat h n n fh ->
  (forall i, (k <= i < n)%nat -> fh i (k - 1)%nat = 0) -> hess_step k (q, h) = Panic.
Proof.
  intros Hk Hh Hz. unfold hess_step. cbn [fst snd]. rewrite usub_ok by lia. cbn [bind].
  destruct (mget_column_spec h n n fh (k - 1) Hh) as (v & Ev & Hv); [lia|]. rewrite Ev. cbn [bind].
  rewrite (mhouseholder_zero v n _ k Hv) by (auto; lia).
  destruct (mone_spec (T:=R) 1) as (I & EI & HI). rewrite EI. cbn [bind].
  rewrite mmul_panic; [reflexivity|]. rewrite (is_mat_cols _ _ _ _ HI), (is_mat_rows _ _ _ _ Hh). lia.
Qed.

Lemma dec_hessenberg_spec (A : matrix R) n a Q H : is_mat A n n a -> dec_hessenberg A = Ret (Q, H) ->
  exists fq fh, is_mat Q n n fq /\ is_mat H n n fh /\ orthogonal n fq /\ hessenberg n fh /\
    feq n n (mulf n (mulf n fq fh) (trf fq)) a /\ (forall c, (c + 1 < n)%nat -> fh (c + 1)%nat c <> 0).
Proof.
  intros HA E. destruct (is_mat_dim _ _ _ _ HA) as [ER EC]. unfold dec_hessenberg in E. rewrite ER, EC, Nat.eqb_refl in E. cbn [rassert bind] in E.
  destruct (Nat.eqb_spec n 0) as [|Hn]; [discriminate|]. cbn [negb rassert bind] in E.
  destruct (mone_spec (T:=R) n) as (I & EI & HI). rewrite EI in E. cbn [bind] in E.
  destruct (for_loop 1 n hess_step (I, A)) as [[q h]|] eqn:EL; [|discriminate]. cbn [bind fst snd] in E.
  destruct (for_loop_inv (fun k st => exists fq fh, is_mat (fst st) n n fq /\ is_mat (snd st) n n fh /\ hess_inv n a k fq fh)
     hess_step 1 n (I, A) (q, h)) as (fq & fh & Hq & Hh & Ho & Hs & Hz).
  - exact EL.
  - lia.
  - exists delta, a. cbn [fst snd]. split; [assumption|]. split; [assumption|]. split; [apply (orthogonal_delta R_RingLaws)|].
    split; [|intros; lia]. eapply feq_trans; [apply (feq_id_l R_RingLaws)|]. apply feq_sym, (feq_id_r R_RingLaws).
  - intros k [q0 h0] [q1 h1] Hk (fq & fh & Hq & Hh & Hinv) Es. cbn [fst snd] in *.
    destruct (tail_dec (fun i => fh i (k - 1)%nat) k n) as [Hnz|Hz].
    + destruct (hess_step_ok n a k q0 h0 fq fh Hk Hq Hh Hinv Hnz) as (q' & h' & fq' & fh' & E' & Hq' & Hh' & Hi' & _).
      rewrite E' in Es. injection Es as <- <-. exists fq', fh'. auto.
    + rewrite (hess_step_panic n k q0 h0 fh Hk Hh Hz) in Es. discriminate.
  - cbn [fst snd] in *. destruct (mtranspose_good q n n fq) as (Q' & EQ & HQ); [lia|lia|auto|exact Hq|].
    rewrite EQ in E. cbn [bind] in E. injection E as <- <-.
    exists (trf fq), fh. split; [exact HQ|]. split; [exact Hh|]. split; [apply orthogonal_trf, Ho|].
    split. { intros i j Hi Hj Hij. apply (Hz j); lia. }
    split; [|intros c Hc; apply Hz; lia].
    change (trf (trf fq)) with fq.
    eapply feq_trans; [apply (feq_assoc R_RingLaws)|].
    eapply feq_trans; [apply feq_mulf; [apply feq_refl|apply feq_sym, Hs]|].
    eapply feq_trans; [apply feq_sym, (feq_assoc R_RingLaws)|].
    eapply feq_trans; [apply feq_mulf; [apply Ho|apply feq_refl]|]. apply (feq_id_l R_RingLaws).
Qed.

(** It panics when the first column is already zero below the diagonal ... *)
Lemma dec_hessenberg_panic (A : matrix R) n a : is_mat A n n a -> (2 <= n)%nat ->
  (forall i, (1 <= i < n)%nat -> a i 0%nat = 0) -> dec_hessenberg A = Panic.
Proof.
  intros HA Hn Hz. destruct (is_mat_dim _ _ _ _ HA) as [ER EC]. unfold dec_hessenberg. rewrite ER, EC, Nat.eqb_refl. cbn [rassert bind].
  replace (n =? 0)%nat with false by (symmetry; apply Nat.eqb_neq; lia). cbn [negb rassert bind].
  destruct (mone_spec (T:=R) n) as (I & EI & HI). rewrite EI. cbn [bind].
  rewrite for_loop_step by lia. rewrite (hess_step_panic n 1 I A a) by (auto; lia). reflexivity.
Qed.

(** ... and returns when the matrix is already unreduced Hessenberg. *)
Lemma dec_hessenberg_returns (A : matrix R) n a : is_mat A n n a -> (0 < n)%nat -> hessenberg n a ->
  (forall c, (c + 1 < n)%nat -> a (c + 1)%nat c <> 0) -> exists Q H, dec_hessenberg A = Ret (Q, H).
Proof.
  intros HA Hn Hh Hu. destruct (is_mat_dim _ _ _ _ HA) as [ER EC]. unfold dec_hessenberg. rewrite ER, EC, Nat.eqb_refl. cbn [rassert bind].
  replace (n =? 0)%nat with false by (symmetry; apply Nat.eqb_neq; lia). cbn [negb rassert bind].
  destruct (mone_spec (T:=R) n) as (I & EI & HI). rewrite EI. cbn [bind].
  destruct (for_loop_ind (fun k st => exists fq fh, is_mat (fst st) n n fq /\ is_mat (snd st) n n fh /\ hess_inv n a k fq fh /\
     hessenberg n fh /\ (forall c, (c + 1 < n)%nat -> fh (c + 1)%nat c <> 0)) hess_step 1 n (I, A)) as ([q h] & E & fq & fh & Hq & Hh' & _).
  - lia.
  - exists delta, a. cbn [fst snd]. split; [assumption|]. split; [assumption|]. split; [|auto]. split; [apply (orthogonal_delta R_RingLaws)|].
    split; [|intros; lia]. eapply feq_trans; [apply (feq_id_l R_RingLaws)|]. apply feq_sym, (feq_id_r R_RingLaws).
  - intros k [q0 h0] Hk (fq & fh & Hq & Hh0 & Hinv & Hhe & Hun). cbn [fst snd] in *.
    destruct (hess_step_ok n a k q0 h0 fq fh) as (q' & h' & fq' & fh' & E' & Hq' & Hh' & Hi' & Hent); auto; try lia.
    { exists k. split; [lia|]. pose proof (Hun (k - 1)%nat ltac:(lia)) as Hx. replace (k - 1 + 1)%nat with k in Hx by lia. exact Hx. }
    exists (q', h'). split; [exact E'|]. exists fq', fh'. cbn [fst snd]. split; [assumption|]. split; [assumption|]. split; [assumption|].
    assert (Hent' := Hent ltac:(intros i Hi; apply Hhe; lia)). split.
    + intros i j Hi Hj Hij. rewrite Hent' by assumption. rewrite (Hhe i j Hi Hj Hij). simpl. ring.
    + intros c Hc. rewrite Hent' by lia. pose proof (Hun c Hc). destruct (c + 1 =? k)%nat; destruct (c =? k)%nat; lra.
  - rewrite E. cbn [bind fst snd] in *. destruct (mtranspose_good q n n fq) as (Q' & EQ & HQ); [lia|lia|auto|exact Hq|].
    rewrite EQ. cbn [bind]. eauto.
Qed.
