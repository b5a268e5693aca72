(** Orthogonal matrices, Givens rotations, QR decomposition. *)
From Coq Require Import Arith List Bool Lia Ring Reals Lra Psatz.
From Verif Require Import Outcome Scalar Matrix_model Transpose_model Vector_model LU_model Decomp_model Matrix_spec LU_spec
  Decomp_spec Matrix_proofs Transpose_proofs Vector_proofs Sums MatProps_proofs VecProps_proofs LUProps_proofs Chol_proofs Norm_proofs RealOps.
Import ListNotations.
Local Open Scope nat_scope.

Section Ring.
Context {T : Type} {O : Ops T} (L : RingLaws O).
Add Ring ringOrtho : (rl_ring O L).

Lemma trf_mulf m f g i j : trf (mulf m f g) i j = mulf m (trf g) (trf f) i j.
Proof. unfold trf, mulf. apply sumn_ext. intros k Hk. ring. Qed.

Lemma feq_mulf m k n f f' g g' : feq m k f f' -> feq k n g g' -> feq m n (mulf k f g) (mulf k f' g').
Proof. intros H1 H2 i j Hi Hj. apply mulf_ext; intros; [apply H1|apply H2]; assumption. Qed.

Lemma feq_trans m n (f g h : nat -> nat -> T) : feq m n f g -> feq m n g h -> feq m n f h.
Proof. intros H1 H2 i j Hi Hj. rewrite (H1 i j Hi Hj). apply H2; assumption. Qed.
Lemma feq_sym m n (f g : nat -> nat -> T) : feq m n f g -> feq m n g f.
Proof. intros H i j Hi Hj. symmetry. apply H; assumption. Qed.
Lemma feq_refl m n (f : nat -> nat -> T) : feq m n f f.
Proof. intros i j Hi Hj. reflexivity. Qed.
Lemma feq_trf m n (f g : nat -> nat -> T) : feq m n f g -> feq n m (trf f) (trf g).
Proof. intros H i j Hi Hj. apply H; assumption. Qed.

Lemma feq_assoc m k l n f g h : feq m n (mulf l (mulf k f g) h) (mulf k f (mulf l g h)).
Proof. intros i j Hi Hj. apply (mulf_assoc L). Qed.
Lemma feq_id_l m n f : feq m n (mulf m delta f) f.
Proof. intros i j Hi Hj. apply (mulf_id_l L). assumption. Qed.
Lemma feq_id_r m n f : feq m n (mulf n f delta) f.
Proof. intros i j Hi Hj. apply (mulf_id_r L). assumption. Qed.
Lemma feq_trf_mulf m k n f g : feq m n (trf (mulf k f g)) (mulf k (trf g) (trf f)).
Proof. intros i j Hi Hj. apply trf_mulf. Qed.

Lemma orthogonal_ext m f g : feq m m f g -> orthogonal m f -> orthogonal m g.
Proof.
  intros H [H1 H2]. split.
  - eapply feq_trans; [|exact H1]. apply feq_mulf; [apply feq_sym, H|apply feq_trf, feq_sym, H].
  - eapply feq_trans; [|exact H2]. apply feq_mulf; [apply feq_trf, feq_sym, H|apply feq_sym, H].
Qed.

Lemma orthogonal_trf m q : orthogonal m q -> orthogonal m (trf q).
Proof. intros [H1 H2]. split; assumption. Qed.

Lemma orthogonal_delta m : orthogonal m delta.
Proof.
  assert (D : feq m m (trf delta) delta) by (intros i j Hi Hj; unfold trf, delta; rewrite Nat.eqb_sym; reflexivity).
  split.
  - eapply feq_trans; [apply feq_id_l|exact D].
  - eapply feq_trans; [apply feq_id_r|exact D].
Qed.

Lemma orth_half m a b : feq m m (mulf m a (trf a)) delta -> feq m m (mulf m b (trf b)) delta ->
  feq m m (mulf m (mulf m a b) (trf (mulf m a b))) delta.
Proof.
  intros Ha Hb. eapply feq_trans; [apply feq_mulf; [apply feq_refl|apply feq_trf_mulf]|].
  eapply feq_trans; [apply feq_assoc|].
  eapply feq_trans; [apply feq_mulf; [apply feq_refl|apply feq_sym, feq_assoc]|].
  eapply feq_trans; [apply feq_mulf; [apply feq_refl|apply feq_mulf; [exact Hb|apply feq_refl]]|].
  eapply feq_trans; [apply feq_mulf; [apply feq_refl|apply feq_id_l]|]. exact Ha.
Qed.

Lemma orthogonal_mul m a b : orthogonal m a -> orthogonal m b -> orthogonal m (mulf m a b).
Proof.
  intros [A1 A2] [B1 B2]. split; [apply orth_half; assumption|].
  eapply feq_trans; [|apply (orth_half m (trf b) (trf a)); assumption].
  apply feq_mulf; [apply feq_trf_mulf|]. intros i j Hi Hj. unfold trf, mulf. apply sumn_ext. intros k Hk. ring.
Qed.

(** ** Givens matrices *)
Definition gvf (i j : nat) (c s : T) : nat -> nat -> T :=
  fun r t => if r =? i then (if t =? i then c else if t =? j then s else zero)
             else if r =? j then (if t =? i then neg s else if t =? j then c else zero)
             else delta r t.

Lemma gvf_act m i j c s (x : nat -> T) r : i < m -> j < m -> i <> j -> r < m ->
  sumn m (fun l => mul (gvf i j c s r l) (x l)) =
  if r =? i then add (mul c (x i)) (mul s (x j))
  else if r =? j then add (mul (neg s) (x i)) (mul c (x j)) else x r.
Proof.
  intros Hi Hj Hij Hr. unfold gvf.
  destruct (Nat.eqb_spec r i) as [->|Hri].
  - rewrite (sumn_ext m _ (fun l => add (mul (delta i l) (mul c (x l))) (mul (delta j l) (mul s (x l))))).
    + rewrite (sumn_add L), (sumn_delta_l L m i (fun l => mul c (x l))), (sumn_delta_l L m j (fun l => mul s (x l))) by assumption. reflexivity.
    + intros l Hl. unfold delta. destruct (Nat.eqb_spec l i); destruct (Nat.eqb_spec l j);
        destruct (Nat.eqb_spec i l); destruct (Nat.eqb_spec j l); subst; try congruence; ring.
  - destruct (Nat.eqb_spec r j) as [->|Hrj].
    + rewrite (sumn_ext m _ (fun l => add (mul (delta i l) (mul (neg s) (x l))) (mul (delta j l) (mul c (x l))))).
      * rewrite (sumn_add L), (sumn_delta_l L m i (fun l => mul (neg s) (x l))), (sumn_delta_l L m j (fun l => mul c (x l))) by assumption. reflexivity.
      * intros l Hl. unfold delta. destruct (Nat.eqb_spec l i); destruct (Nat.eqb_spec l j);
          destruct (Nat.eqb_spec i l); destruct (Nat.eqb_spec j l); subst; try congruence; ring.
    + apply (sumn_delta_l L m r x). assumption.
Qed.

Lemma gvf_mul m i j c s f r t : i < m -> j < m -> i <> j -> r < m ->
  mulf m (gvf i j c s) f r t =
  if r =? i then add (mul c (f i t)) (mul s (f j t))
  else if r =? j then add (mul (neg s) (f i t)) (mul c (f j t)) else f r t.
Proof. intros. unfold mulf. apply (gvf_act m i j c s (fun l => f l t)); assumption. Qed.

Lemma trf_gvf i j c s r t : i <> j -> trf (gvf i j c s) r t = gvf i j c (neg s) r t.
Proof.
  intros H. unfold trf, gvf, delta.
  repeat match goal with |- context [?x =? ?y] => destruct (Nat.eqb_spec x y) end; subst; try congruence; ring.
Qed.

Lemma gvf_half m i j c s : i < m -> j < m -> i <> j -> add (mul c c) (mul s s) = one ->
  feq m m (mulf m (gvf i j c s) (trf (gvf i j c s))) delta.
Proof.
  intros Hi Hj Hij H r t Hr Ht.
  assert (Hc : mul c c = sub one (mul s s)) by (rewrite <- H; ring).
  rewrite gvf_mul by assumption. rewrite !(trf_gvf i j c s) by assumption.
  unfold gvf, delta.
  repeat match goal with |- context [?x =? ?y] => destruct (Nat.eqb_spec x y) end; subst; try congruence; ring [Hc].
Qed.

Lemma gvf_orthogonal m i j c s : i < m -> j < m -> i <> j -> add (mul c c) (mul s s) = one -> orthogonal m (gvf i j c s).
Proof.
  intros Hi Hj Hij H. split; [apply gvf_half; assumption|].
  eapply feq_trans; [|apply (gvf_half m i j c (neg s)); auto; rewrite <- H; ring].
  apply feq_mulf.
  - intros r t Hr Ht. apply trf_gvf. assumption.
  - intros r t Hr Ht. rewrite (trf_gvf i j c (neg s)) by assumption.
    f_equal. ring.
Qed.

Lemma gvf_orthogonal_conv m i j c s : i < m -> j < m -> i <> j -> orthogonal m (gvf i j c s) -> add (mul c c) (mul s s) = one.
Proof.
  intros Hi Hj Hij [H _]. pose proof (H i i Hi Hi) as E. rewrite gvf_mul in E by assumption.
  rewrite Nat.eqb_refl in E. unfold trf, gvf, delta in E. rewrite !Nat.eqb_refl in E.
  destruct (Nat.eqb_spec j i); [congruence|]. exact E.
Qed.

Lemma mgivens_spec m i j c s : i < m -> j < m -> i <> j -> exists G, mgivens m i j c s = Ret G /\ is_mat G m m (gvf i j c s).
Proof.
  intros Hi Hj Hij. unfold mgivens.
  replace (m <=? i) with false by (symmetry; apply Nat.leb_gt; lia).
  replace (m <=? j) with false by (symmetry; apply Nat.leb_gt; lia). cbn [orb negb rassert bind].
  destruct (mone_spec m) as (I & EI & HI). rewrite EI. cbn [bind].
  destruct (mset_spec I m m delta i i c HI Hi Hi) as (G1 & E1 & H1). rewrite E1. cbn [bind].
  destruct (mset_spec G1 m m _ j j c H1 Hj Hj) as (G2 & E2 & H2). rewrite E2. cbn [bind].
  destruct (mset_spec G2 m m _ i j s H2 Hi Hj) as (G3 & E3 & H3). rewrite E3. cbn [bind].
  destruct (mset_spec G3 m m _ j i (neg s) H3 Hj Hi) as (G4 & E4 & H4). exists G4. split; [exact E4|].
  eapply is_mat_ext; [|exact H4]. intros r t Hr Ht. unfold fupd, gvf, delta.
  repeat match goal with |- context [?x =? ?y] => destruct (Nat.eqb_spec x y) end; subst; cbn [andb]; try congruence; reflexivity.
Qed.

(** i = j: the block degenerates. *)
Lemma mgivens_same m i c s : i < m -> exists G, mgivens m i i c s = Ret G /\ is_mat G m m (fupd delta i i (neg s)).
Proof.
  intros Hi. unfold mgivens.
  replace (m <=? i) with false by (symmetry; apply Nat.leb_gt; lia). cbn [orb negb rassert bind].
  destruct (mone_spec m) as (I & EI & HI). rewrite EI. cbn [bind].
  destruct (mset_spec I m m delta i i c HI Hi Hi) as (G1 & E1 & H1). rewrite E1. cbn [bind].
  destruct (mset_spec G1 m m _ i i c H1 Hi Hi) as (G2 & E2 & H2). rewrite E2. cbn [bind].
  destruct (mset_spec G2 m m _ i i s H2 Hi Hi) as (G3 & E3 & H3). rewrite E3. cbn [bind].
  destruct (mset_spec G3 m m _ i i (neg s) H3 Hi Hi) as (G4 & E4 & H4). exists G4. split; [exact E4|].
  eapply is_mat_ext; [|exact H4]. intros r t Hr Ht. unfold fupd.
  destruct ((r =? i) && (t =? i)); reflexivity.
Qed.

Lemma mgivens_panic m i j c s : m <= i \/ m <= j -> mgivens m i j c s = Panic.
Proof.
  intros H. unfold mgivens. replace ((m <=? i) || (m <=? j)) with true; [reflexivity|].
  symmetry. apply orb_true_iff. rewrite !Nat.leb_le. assumption.
Qed.
End Ring.

Section Real.
Local Open Scope R_scope.

Lemma givens_pair_spec a b : let '(c, s) := givens_pair a b in c * c + s * s = 1 /\ s * a + c * b = 0.
Proof.
  unfold givens_pair. simpl. unfold R_eqb, R_ltb.
  destruct (Req_EM_T b 0) as [->|Hb]; [split; ring|].
  assert (Hs : forall t, 0 < 1 + R_pow t 2) by (intros t; rewrite R_pow_2; pose proof (Rle_0_sqr t); unfold Rsqr in *; lra).
  destruct (Rlt_dec (Rabs a) (Rabs b)) as [Hlt|Hge].
  - set (t := - a / b). rewrite R_pow_half by (left; apply Hs). pose proof (Hs t) as Hpos.
    assert (Hr : 0 < sqrt (1 + R_pow t 2)) by (apply sqrt_lt_R0; assumption).
    assert (Hsq : sqrt (1 + R_pow t 2) * sqrt (1 + R_pow t 2) = 1 + t * t) by (rewrite sqrt_sqrt by lra; rewrite R_pow_2; reflexivity).
    set (q := sqrt (1 + R_pow t 2)) in *. split.
    + replace (1 / q * t * (1 / q * t) + 1 / q * (1 / q)) with ((1 + t * t) / (q * q)) by (field; lra).
      rewrite Hsq. field. rewrite <- Hsq. nra.
    + assert (Ht : t * b = - a) by (unfold t; field; assumption).
      replace (1 / q * a + 1 / q * t * b) with (1 / q * (a + t * b)) by ring. rewrite Ht. ring.
  - assert (Ha : a <> 0) by (intro E; subst a; rewrite Rabs_R0 in Hge; pose proof (Rabs_pos_lt b Hb); lra).
    set (t := - b / a). rewrite R_pow_half by (left; apply Hs). pose proof (Hs t) as Hpos.
    assert (Hr : 0 < sqrt (1 + R_pow t 2)) by (apply sqrt_lt_R0; assumption).
    assert (Hsq : sqrt (1 + R_pow t 2) * sqrt (1 + R_pow t 2) = 1 + t * t) by (rewrite sqrt_sqrt by lra; rewrite R_pow_2; reflexivity).
    set (q := sqrt (1 + R_pow t 2)) in *. split.
    + replace (1 / q * (1 / q) + 1 / q * t * (1 / q * t)) with ((1 + t * t) / (q * q)) by (field; lra).
      rewrite Hsq. field. rewrite <- Hsq. nra.
    + assert (Ht : t * a = - b) by (unfold t; field; assumption).
      replace (1 / q * t * a + 1 / q * b) with (1 / q * (t * a + b)) by ring. rewrite Ht. ring.
Qed.

(** ** QR *)
Lemma R_eqb_true x y : R_eqb x y = true <-> x = y.
Proof. apply R_EqLaws. Qed.

(** What one elimination does. *)
Lemma qr_step_spec m n (A : nat -> nat -> R) j i q r fq fr : (j < n)%nat -> (j < i)%nat -> (i < m)%nat -> (n <= m)%nat ->
  is_mat q m m fq -> is_mat r m n fr ->
  exists q' r' c s, qr_step j i (q, r) = Ret (q', r') /\ c * c + s * s = 1 /\
     is_mat q' m m (mulf m (gvf i j c s) fq) /\ is_mat r' m n (mulf m (gvf i j c s) fr) /\
     (fr j j <> 0 -> mulf m (gvf i j c s) fr i j = 0 /\ mulf m (gvf i j c s) fr j j <> 0) /\
     (fr j j = 0 -> c = 1 /\ s = 0).
Proof.
  intros Hj Hji Him Hnm Hq Hr. unfold qr_step. cbn [fst snd].
  rewrite (is_mat_get _ _ _ _ j j Hr), (is_mat_get _ _ _ _ i j Hr) by lia. cbn [bind].
  rewrite (is_mat_rows _ _ _ _ Hr).
  change (@tpow R R_pops) with R_pow. change (@half R R_pops) with (1 / 2).
  set (a := fr j j). set (b := fr i j).
  change (add (mul a a) (mul b b)) with (a * a + b * b).
  assert (Hnn : 0 <= a * a + b * b) by nra. rewrite R_pow_half by assumption.
  set (p := sqrt (a * a + b * b)). assert (Hpp : p * p = a * a + b * b) by (apply sqrt_sqrt; assumption).
  assert (Hp0 : 0 <= p) by apply sqrt_pos.
  destruct (eqb a zero) eqn:Ea.
  { apply R_eqb_true in Ea. rewrite andb_false_r. cbn [andb].
    exists q, r, 1, 0. split; [reflexivity|]. split; [ring|].
    assert (Gid : forall f u v, (u < m)%nat -> mulf m (gvf i j 1 0) f u v = f u v).
    { intros f u v Hu. rewrite (gvf_mul R_RingLaws) by lia.
      destruct (Nat.eqb_spec u i); [subst; simpl; ring|]. destruct (Nat.eqb_spec u j); [subst; simpl; ring|reflexivity]. }
    split; [eapply is_mat_ext; [|exact Hq]; intros; symmetry; apply Gid; assumption|].
    split; [eapply is_mat_ext; [|exact Hr]; intros; symmetry; apply Gid; assumption|].
    split; [intros; contradiction|auto]. }
  assert (Ha : a <> 0) by (intro E; rewrite E in Ea; assert (eqb (0:R) zero = true) by (apply R_eqb_true; reflexivity); congruence).
  destruct (eqb b zero) eqn:Eb.
  { apply R_eqb_true in Eb. change (b = 0) in Eb. rewrite andb_false_r.
    exists q, r, 1, 0. split; [reflexivity|]. split; [ring|].
    assert (Gid : forall f u v, (u < m)%nat -> mulf m (gvf i j 1 0) f u v = f u v).
    { intros f u v Hu. rewrite (gvf_mul R_RingLaws) by lia.
      destruct (Nat.eqb_spec u i); [subst; simpl; ring|]. destruct (Nat.eqb_spec u j); [subst; simpl; ring|reflexivity]. }
    split; [eapply is_mat_ext; [|exact Hq]; intros; symmetry; apply Gid; assumption|].
    split; [eapply is_mat_ext; [|exact Hr]; intros; symmetry; apply Gid; assumption|].
    split; [|intros; contradiction]. intros _. rewrite !Gid by lia. split; assumption. }
  assert (Hp : p <> 0) by (intro E; rewrite E in Hpp; assert (0 < a * a) by (apply Rsqr_pos_lt; assumption); nra).
  replace (eqb p zero) with false.
  2:{ symmetry. destruct (eqb p zero) eqn:E; [|reflexivity]. apply R_eqb_true in E. contradiction. }
  cbn [negb andb].
  change (div a p) with (a / p). change (div (neg b) p) with (- b / p).
  destruct (mgivens_spec m i j (a / p) (- b / p)) as (G & EG & HG); [lia|lia|lia|].
  rewrite EG. cbn [bind].
  destruct (mmul_spec G r m m n _ _ HG Hr) as (r' & Er & Hr'). rewrite Er. cbn [bind].
  destruct (mmul_spec G q m m m _ _ HG Hq) as (q' & Eq & Hq'). rewrite Eq. cbn [bind].
  exists q', r', (a / p), (- b / p). split; [reflexivity|].
  split. { replace (a / p * (a / p) + - b / p * (- b / p)) with ((a * a + b * b) / (p * p)) by (field; assumption). rewrite <- Hpp. field. assumption. }
  split; [exact Hq'|]. split; [exact Hr'|]. split; [|intros; contradiction].
  intros _. rewrite !(gvf_mul R_RingLaws) by lia. rewrite !Nat.eqb_refl.
  destruct (Nat.eqb_spec j i); [lia|]. fold a b. simpl. split.
  - field. assumption.
  - replace (- (- b / p) * b + a / p * a) with ((a * a + b * b) / p) by (field; assumption). rewrite <- Hpp.
    replace (p * p / p) with p by (field; assumption). assumption.
Qed.

Definition a0 (f : nat -> nat -> R) : R := f 0%nat 0%nat.
Definition qr_inv (m n : nat) (A : nat -> nat -> R) (k : nat) (fq fr : nat -> nat -> R) : Prop :=
  orthogonal m fq /\ feq m n (mulf m fq A) fr /\
  (forall c, (c < k)%nat -> fr c c <> 0 -> forall i, (c < i < m)%nat -> fr i c = 0) /\
  (a0 A <> 0 -> a0 fr <> 0).

(** inside column j, rows >= i done *)
Definition qr_in (m n : nat) (A : nat -> nat -> R) (j i : nat) (fq fr : nat -> nat -> R) : Prop :=
  qr_inv m n A j fq fr /\ (fr j j <> 0 -> forall t, (i <= t < m)%nat -> fr t j = 0).

Lemma gvf_mul_feq m n i j (c s : R) A fq fr : (i < m)%nat -> (j < m)%nat -> i <> j -> feq m n (mulf m fq A) fr ->
  feq m n (mulf m (mulf m (gvf i j c s) fq) A) (mulf m (gvf i j c s) fr).
Proof.
  intros Hi Hj Hij H. eapply feq_trans; [apply (feq_assoc R_RingLaws)|]. apply feq_mulf; [apply feq_refl|exact H].
Qed.

Lemma dec_qr_spec (A : matrix R) m n a : is_mat A m n a -> (n <= m)%nat -> (0 < m)%nat ->
  exists Q R fq fr, dec_qr A = Ret (Q, R) /\ is_mat Q m m fq /\ is_mat R m n fr /\
    orthogonal m fq /\ feq m n (mulf m fq fr) a /\
    (forall c, (c < n)%nat -> fr c c <> 0 -> forall i, (c < i < m)%nat -> fr i c = 0) /\
    (a 0%nat 0%nat <> 0 -> fr 0%nat 0%nat <> 0).
Proof.
  intros HA Hnm Hm. destruct (is_mat_dim _ _ _ _ HA) as [ER EC]. unfold dec_qr. rewrite ER, EC.
  replace (n <=? m)%nat with true by (symmetry; apply Nat.leb_le; assumption). cbn [rassert bind].
  destruct (mone_spec (T:=R) m) as (I & EI & HI). rewrite EI. cbn [bind].
  destruct (for_loop_ind (fun j st => exists fq fr, is_mat (fst st) m m fq /\ is_mat (snd st) m n fr /\ qr_inv m n a j fq fr)
     (fun j st => for_loop_rev (j + 1) m (qr_step j) st) 0 n (I, A)) as (st & E & fq & fr & Hq & Hr & Hinv).
  - lia.
  - exists delta, a. cbn [fst snd]. split; [exact HI|]. split; [exact HA|]. split; [apply (orthogonal_delta R_RingLaws)|].
    split; [apply (feq_id_l R_RingLaws)|]. split; [intros; lia|auto].
  - intros j st Hj (fq & fr & Hq & Hr & Hinv).
    destruct (for_loop_rev_ind (fun i st => exists fq fr, is_mat (fst st) m m fq /\ is_mat (snd st) m n fr /\ qr_in m n a j i fq fr)
       (qr_step j) (j + 1) m st) as (st' & E & fq' & fr' & Hq' & Hr' & Hin).
    + lia.
    + exists fq, fr. split; [assumption|]. split; [assumption|]. split; [assumption|]. intros; lia.
    + clear fq fr Hq Hr Hinv. intros i [q r] Hi (fq & fr & Hq & Hr & (Ho & Hp & Hz & H0) & Hc). cbn [fst snd] in *.
      destruct (qr_step_spec m n a j i q r fq fr) as (q' & r' & c & s & E & Hcs & Hq' & Hr' & H1 & H2); try assumption; try lia.
      exists (q', r'). split; [exact E|]. exists (mulf m (gvf i j c s) fq), (mulf m (gvf i j c s) fr). cbn [fst snd].
      split; [assumption|]. split; [assumption|]. split; [split; [|split; [|split]]|].
      * apply (orthogonal_mul R_RingLaws); [|assumption]. apply (gvf_orthogonal R_RingLaws); try lia. exact Hcs.
      * apply gvf_mul_feq; try lia. assumption.
      * intros c0 Hc0 Hnz t Ht. rewrite (gvf_mul R_RingLaws) in Hnz by lia.
        destruct (Nat.eqb_spec c0 i); [lia|]. destruct (Nat.eqb_spec c0 j); [lia|].
        rewrite (gvf_mul R_RingLaws) by lia.
        destruct (Nat.eqb_spec t i). { rewrite !(Hz c0 Hc0 Hnz) by lia. simpl. ring. }
        destruct (Nat.eqb_spec t j). { rewrite !(Hz c0 Hc0 Hnz) by lia. simpl. ring. }
        apply Hz; auto; lia.
      * intros Ha0. specialize (H0 Ha0). unfold a0 in *. destruct (Nat.eq_dec j 0) as [->|Hj0]; [apply H1; exact H0|].
        rewrite (gvf_mul R_RingLaws) by lia. destruct (Nat.eqb_spec 0 i); [lia|]. destruct (Nat.eqb_spec 0 j); [lia|]. exact H0.
      * intros Hnz t Ht. destruct (Req_dec (fr j j) 0) as [Ez|Enz].
        { destruct (H2 Ez) as [-> ->]. exfalso. apply Hnz. rewrite (gvf_mul R_RingLaws) by lia.
          destruct (Nat.eqb_spec j i); [lia|]. rewrite Nat.eqb_refl, Ez. simpl. ring. }
        destruct (H1 Enz) as [Hzero _]. destruct (Nat.eq_dec t i) as [->|Hti]; [exact Hzero|].
        rewrite (gvf_mul R_RingLaws) by lia.
        destruct (Nat.eqb_spec t i); [lia|]. destruct (Nat.eqb_spec t j); [lia|]. apply Hc; auto; lia.
    + exists st'. split; [exact E|]. exists fq', fr'. split; [assumption|]. split; [assumption|].
      destruct Hin as [(Ho & Hp & Hz & H0) Hc]. split; [assumption|]. split; [assumption|]. split; [|exact H0].
      intros c Hc' Hnz t Ht. destruct (Nat.eq_dec c j) as [->|]; [apply Hc; auto; lia|apply Hz; auto; lia].
  - rewrite E. cbn [bind]. destruct Hinv as (Ho & Hp & Hz & H0).
    destruct (mtranspose_good (fst st) m m fq Hm Hm (or_introl eq_refl) Hq) as (Q & EQ & HQ).
    rewrite EQ. cbn [bind]. exists Q, (snd st), (trf fq), fr. split; [reflexivity|]. split; [exact HQ|]. split; [exact Hr|].
    split; [apply orthogonal_trf, Ho|]. split; [|split; [exact Hz|exact H0]].
    eapply feq_trans; [apply feq_mulf; [apply feq_refl|apply feq_sym, Hp]|].
    eapply feq_trans; [apply feq_sym, (feq_assoc R_RingLaws)|].
    eapply feq_trans; [apply feq_mulf; [apply Ho|apply feq_refl]|]. apply (feq_id_l R_RingLaws).
Qed.
End Real.
