(** Lemmas about vectors, rows, columns, slices, products and iterators. *)
From Coq Require Import Arith List Bool Lia.
From Verif Require Import Outcome Scalar Matrix_model Transpose_model Vector_model Matrix_spec Matrix_proofs
  Transpose_proofs.
Import ListNotations.
Local Open Scope nat_scope.

Section Access.
Context {T : Type}.
Implicit Types (v w : vector T) (A : matrix T).

Definition upd1 (f : nat -> T) (k : nat) (x : T) : nat -> T := fun i => if i =? k then x else f i.

Lemma col_get v m f i : is_col v m f -> i < m -> vvget v i = Ret (f i).
Proof.
  intros H Hi. pose proof (is_mat_dim _ _ _ _ H) as [R C]. unfold vvget. rewrite R, C. rewrite orb_true_r. simpl.
  destruct (m =? 1) eqn:E.
  - apply Nat.eqb_eq in E. subst m. assert (i = 0) by lia. subst i.
    rewrite (is_mat_get _ _ _ _ 0 0 H) by lia. reflexivity.
  - apply Nat.ltb_lt in Hi as Hi'. rewrite Hi'. simpl. apply (is_mat_get _ _ _ _ i 0 H); lia.
Qed.

Lemma row_get v n f i : is_row v n f -> i < n -> vvget v i = Ret (f i).
Proof.
  intros H Hi. pose proof (is_mat_dim _ _ _ _ H) as [R C]. unfold vvget. rewrite R, C. simpl.
  apply Nat.ltb_lt in Hi as Hi'. rewrite Hi'. simpl. apply (is_mat_get _ _ _ _ 0 i H); lia.
Qed.

Lemma col_get_panic v m f i : is_col v m f -> m <= i -> vvget v i = Panic.
Proof.
  intros H Hi. pose proof (is_mat_dim _ _ _ _ H) as [R C]. unfold vvget. rewrite R, C. rewrite orb_true_r. simpl.
  destruct (m =? 1) eqn:E.
  - apply Nat.eqb_eq in E. replace (i <? 1) with false by (symmetry; apply Nat.ltb_ge; lia). reflexivity.
  - replace (i <? m) with false by (symmetry; apply Nat.ltb_ge; lia). reflexivity.
Qed.

Lemma row_get_panic v n f i : is_row v n f -> n <= i -> vvget v i = Panic.
Proof.
  intros H Hi. pose proof (is_mat_dim _ _ _ _ H) as [R C]. unfold vvget. rewrite R, C. simpl.
  replace (i <? n) with false by (symmetry; apply Nat.ltb_ge; lia). reflexivity.
Qed.

Lemma col_set v m f i x : is_col v m f -> i < m ->
  exists v', vvset v i x = Ret v' /\ is_col v' m (upd1 f i x).
Proof.
  intros H Hi. pose proof (is_mat_dim _ _ _ _ H) as [R C]. unfold vvset. rewrite R, C. rewrite orb_true_r. simpl.
  destruct (mset_spec v m 1 _ i 0 x H) as (v' & E & H'); [lia|lia|].
  assert (H2 : is_col v' m (upd1 f i x)).
  { eapply is_mat_ext; [|exact H']. intros a b Ha Hb. unfold fupd, upd1.
    assert (b = 0) by lia. subst b. rewrite andb_true_r. reflexivity. }
  destruct (m =? 1) eqn:Em.
  - apply Nat.eqb_eq in Em. subst m. assert (i = 0) by lia. subst i. simpl. rewrite E. eauto.
  - apply Nat.ltb_lt in Hi as Hi'. rewrite Hi'. simpl. rewrite E. eauto.
Qed.

Lemma row_set v n f i x : is_row v n f -> i < n ->
  exists v', vvset v i x = Ret v' /\ is_row v' n (upd1 f i x).
Proof.
  intros H Hi. pose proof (is_mat_dim _ _ _ _ H) as [R C]. unfold vvset. rewrite R, C. simpl.
  destruct (mset_spec v 1 n _ 0 i x H) as (v' & E & H'); [lia|lia|].
  apply Nat.ltb_lt in Hi as Hi'. rewrite Hi'. simpl. rewrite E. eexists; split; [reflexivity|].
  eapply is_mat_ext; [|exact H']. intros a b Ha Hb. unfold fupd, upd1.
  assert (a = 0) by lia. subst a. simpl. reflexivity.
Qed.

Lemma col_set_panic v m f i x : is_col v m f -> m <= i -> vvset v i x = Panic.
Proof.
  intros H Hi. pose proof (is_mat_dim _ _ _ _ H) as [R C]. unfold vvset. rewrite R, C. rewrite orb_true_r. simpl.
  destruct (m =? 1) eqn:E.
  - apply Nat.eqb_eq in E. replace (i <? 1) with false by (symmetry; apply Nat.ltb_ge; lia). reflexivity.
  - replace (i <? m) with false by (symmetry; apply Nat.ltb_ge; lia). reflexivity.
Qed.

Lemma row_set_panic v n f i x : is_row v n f -> n <= i -> vvset v i x = Panic.
Proof.
  intros H Hi. pose proof (is_mat_dim _ _ _ _ H) as [R C]. unfold vvset. rewrite R, C. simpl.
  replace (i <? n) with false by (symmetry; apply Nat.ltb_ge; lia). reflexivity.
Qed.

(** Neither a row nor a column: access panics. *)
Lemma vvget_notvec v i : rows v <> 1 -> cols v <> 1 -> vvget v i = Panic.
Proof.
  intros H1 H2. unfold vvget. apply Nat.eqb_neq in H1, H2. rewrite H1, H2. reflexivity.
Qed.

Lemma col_ext v m f g : (forall i, i < m -> f i = g i) -> is_col v m f -> is_col v m g.
Proof. intros E H. eapply is_mat_ext; [|exact H]. intros. apply E. assumption. Qed.
Lemma row_ext v n f g : (forall i, i < n -> f i = g i) -> is_row v n f -> is_row v n g.
Proof. intros E H. eapply is_mat_ext; [|exact H]. intros. apply E. assumption. Qed.

Lemma vnew_column_spec m (d : list T) (dflt : T) : length d = m ->
  exists v, vnew_column m d = Ret v /\ is_col v m (fun i => nth i d dflt).
Proof.
  intros H. unfold vnew_column. rewrite H, Nat.eqb_refl. simpl.
  destruct (mnew_spec m 1 d dflt) as (v & E & Hv); [lia|]. exists v. split; [assumption|].
  eapply is_mat_ext; [|exact Hv]. intros i j Hi Hj. simpl. assert (j = 0) by lia. subst j. reflexivity.
Qed.

Lemma vnew_row_spec n (d : list T) (dflt : T) : length d = n ->
  exists v, vnew_row n d = Ret v /\ is_row v n (fun i => nth i d dflt).
Proof.
  intros H. unfold vnew_row. rewrite H, Nat.eqb_refl. cbn [rassert bind].
  destruct (mnew_spec 1 n d dflt) as (v & E & Hv); [lia|]. exists v. split; [assumption|].
  eapply is_mat_ext; [|exact Hv]. intros i j Hi Hj. cbn beta. f_equal. lia.
Qed.

Lemma vnew_column_panic m (d : list T) : length d <> m -> vnew_column m d = Panic.
Proof.
  intros H. unfold vnew_column. replace (m =? length d) with false by (symmetry; apply Nat.eqb_neq; lia). reflexivity.
Qed.
Lemma vnew_row_panic m (d : list T) : length d <> m -> vnew_row m d = Panic.
Proof.
  intros H. unfold vnew_row. replace (m =? length d) with false by (symmetry; apply Nat.eqb_neq; lia). reflexivity.
Qed.

(** A [for] loop that pushes values builds the list of these values. *)
Lemma push_loop (n : nat) (g : nat -> T) (body : nat -> list T -> outcome (list T)) :
  (forall k d, k < n -> body k d = Ret (d ++ [g k])) ->
  for_loop 0 n body [] = Ret (map g (seq 0 n)).
Proof.
  intro H.
  destruct (for_loop_ind (fun k d => d = map g (seq 0 k)) body 0 n []) as (s & E & Hs).
  - lia.
  - reflexivity.
  - intros i s Hi ->. rewrite H by lia. eexists; split; [reflexivity|].
    rewrite seq_S, map_app. reflexivity.
  - congruence.
Qed.

Lemma nth_map_seq (g : nat -> T) n i d : i < n -> nth i (map g (seq 0 n)) d = g i.
Proof.
  intros H. rewrite (nth_indep _ d (g 0)) by (rewrite map_length, seq_length; assumption).
  rewrite (map_nth g). rewrite seq_nth by assumption. reflexivity.
Qed.

(** Loops writing a vector component by component. *)
Lemma col_fill v m f (g : nat -> T) (body : nat -> vector T -> outcome (vector T)) :
  is_col v m f ->
  (forall k v', k < m -> is_col v' m (fun i => if i <? k then g i else f i) -> body k v' = vvset v' k (g k)) ->
  exists v', for_loop 0 m body v = Ret v' /\ is_col v' m g.
Proof.
  intros H Hb.
  destruct (for_loop_ind (fun k v' => is_col v' m (fun i => if i <? k then g i else f i)) body 0 m v)
    as (v' & E & H').
  - lia.
  - eapply col_ext; [|exact H]. reflexivity.
  - intros k v' Hk Hv'. rewrite Hb by (auto; lia).
    destruct (col_set v' m _ k (g k) Hv') as (v2 & E2 & H2); [lia|].
    exists v2. split; [assumption|]. eapply col_ext; [|exact H2].
    intros i Hi. unfold upd1. bcase.
  - exists v'. split; [assumption|]. eapply col_ext; [|exact H']. intros i Hi. bcase.
Qed.

Lemma row_fill v n f (g : nat -> T) (body : nat -> vector T -> outcome (vector T)) :
  is_row v n f ->
  (forall k v', k < n -> is_row v' n (fun i => if i <? k then g i else f i) -> body k v' = vvset v' k (g k)) ->
  exists v', for_loop 0 n body v = Ret v' /\ is_row v' n g.
Proof.
  intros H Hb.
  destruct (for_loop_ind (fun k v' => is_row v' n (fun i => if i <? k then g i else f i)) body 0 n v)
    as (v' & E & H').
  - lia.
  - eapply row_ext; [|exact H]. reflexivity.
  - intros k v' Hk Hv'. rewrite Hb by (auto; lia).
    destruct (row_set v' n _ k (g k) Hv') as (v2 & E2 & H2); [lia|].
    exists v2. split; [assumption|]. eapply row_ext; [|exact H2].
    intros i Hi. unfold upd1. bcase.
  - exists v'. split; [assumption|]. eapply row_ext; [|exact H']. intros i Hi. bcase.
Qed.

End Access.

Section WithOps.
Context {T : Type} {O : Ops T}.
Implicit Types (v w : vector T) (A B : matrix T).

Lemma vzero_spec m : is_col (vzero m) m (fun _ => zero).
Proof. apply mzero_spec. Qed.

Lemma vone_spec m : exists v, vone m = Ret v /\ is_col v m (fun _ => one).
Proof.
  unfold vone. rewrite (push_loop m (fun _ => one)) by reflexivity. simpl.
  destruct (vnew_column_spec m (map (fun _ => one) (seq 0 m)) one) as (v & E & H).
  - rewrite map_length, seq_length. reflexivity.
  - exists v. split; [assumption|]. eapply col_ext; [|exact H].
    intros i Hi. apply (nth_map_seq (fun _ => one)). assumption.
Qed.

Lemma vtranspose_col v m f : 0 < m -> is_col v m f ->
  exists w, vtranspose v = Ret w /\ is_row w m f.
Proof.
  intros Hm H. unfold vtranspose.
  destruct (mtranspose_good v m 1 _ Hm ltac:(lia) ltac:(auto) H) as (B & E & HB).
  exists B. split; [assumption|]. exact HB.
Qed.

Lemma vtranspose_row v m f : 0 < m -> is_row v m f ->
  exists w, vtranspose v = Ret w /\ is_col w m f.
Proof.
  intros Hm H. unfold vtranspose.
  destruct (mtranspose_good v 1 m _ ltac:(lia) Hm ltac:(auto) H) as (B & E & HB).
  exists B. split; [assumption|]. exact HB.
Qed.

Lemma vtranspose_vzero n : exists w, vtranspose (vzero n) = Ret w /\ is_row w n (fun _ => zero).
Proof.
  destruct n as [|n].
  - eexists. split; [reflexivity|]. split; [reflexivity|]. split; [reflexivity|]. intros; lia.
  - apply vtranspose_col; [lia|]. apply vzero_spec.
Qed.

(** *** Rows and columns of a matrix *)

Lemma mget_column_spec A m n f j : is_mat A m n f -> j < n ->
  exists v, mget_column A j = Ret v /\ is_col v m (fun i => f i j).
Proof.
  intros H Hj. pose proof (is_mat_dim _ _ _ _ H) as [R C]. unfold mget_column. rewrite R, C.
  apply Nat.ltb_lt in Hj as Hj'. rewrite Hj'. simpl.
  apply (col_fill _ m _ _ _ (vzero_spec m)).
  intros k v' Hk _. rewrite (is_mat_get _ _ _ _ _ _ H) by lia. reflexivity.
Qed.

Lemma mget_column_panic A j : cols A <= j -> mget_column A j = Panic.
Proof.
  intros H. unfold mget_column. replace (j <? cols A) with false by (symmetry; apply Nat.ltb_ge; lia). reflexivity.
Qed.

Lemma mget_row_spec A m n f i : is_mat A m n f -> i < m ->
  exists v, mget_row A i = Ret v /\ is_row v n (fun j => f i j).
Proof.
  intros H Hi. pose proof (is_mat_dim _ _ _ _ H) as [R C]. unfold mget_row. rewrite R, C.
  apply Nat.ltb_lt in Hi as Hi'. rewrite Hi'. cbn [rassert bind].
  destruct (vtranspose_vzero n) as (w & Ew & Hw). rewrite Ew. cbn [bind].
  apply (row_fill _ n _ _ _ Hw).
  intros k v' Hk _. rewrite (is_mat_get _ _ _ _ _ _ H) by lia. reflexivity.
Qed.

Lemma mget_row_panic A i : rows A <= i -> mget_row A i = Panic.
Proof.
  intros H. unfold mget_row. replace (i <? rows A) with false by (symmetry; apply Nat.ltb_ge; lia). reflexivity.
Qed.

Lemma mset_column_spec A m n f v g j : is_mat A m n f -> is_col v m g -> j < n ->
  exists B, mset_column A v j = Ret B /\ is_mat B m n (fun a b => if b =? j then g a else f a b).
Proof.
  intros H Hv Hj. pose proof (is_mat_dim _ _ _ _ H) as [R C]. pose proof (is_mat_rows _ _ _ _ Hv) as Rv.
  unfold mset_column. rewrite R, Rv, Nat.eqb_refl. cbn [rassert bind].
  apply col_loop_spec; auto. intros i A' Hi _. rewrite (col_get _ _ _ _ Hv Hi). reflexivity.
Qed.

Lemma mset_row_spec A m n f v g i : is_mat A m n f -> is_row v n g -> i < m ->
  exists B, mset_row A v i = Ret B /\ is_mat B m n (fun a b => if a =? i then g b else f a b).
Proof.
  intros H Hv Hi. pose proof (is_mat_dim _ _ _ _ H) as [R C]. pose proof (is_mat_cols _ _ _ _ Hv) as Rv.
  unfold mset_row. rewrite C, Rv, Nat.eqb_refl. cbn [rassert bind].
  apply row_loop_spec; auto. intros j A' Hj _. rewrite (row_get _ _ _ _ Hv Hj). reflexivity.
Qed.

Lemma mset_column_panic_len A v j : rows v <> rows A -> mset_column A v j = Panic.
Proof. intros H. unfold mset_column. apply Nat.eqb_neq in H. rewrite H. reflexivity. Qed.
Lemma mset_row_panic_len A v i : cols v <> cols A -> mset_row A v i = Panic.
Proof. intros H. unfold mset_row. apply Nat.eqb_neq in H. rewrite H. reflexivity. Qed.

Lemma mset_column_panic_idx A v j : 0 < rows A -> cols A <= j -> mset_column A v j = Panic.
Proof.
  intros H Hj. unfold mset_column. destruct (rows v =? rows A); [|reflexivity]. simpl.
  rewrite for_loop_step by assumption. destruct (vvget v 0); simpl; [|reflexivity].
  rewrite mset_panic by auto. reflexivity.
Qed.
Lemma mset_row_panic_idx A v i : 0 < cols A -> rows A <= i -> mset_row A v i = Panic.
Proof.
  intros H Hj. unfold mset_row. destruct (cols v =? cols A); [|reflexivity]. simpl.
  rewrite for_loop_step by assumption. destruct (vvget v 0); simpl; [|reflexivity].
  rewrite mset_panic by auto. reflexivity.
Qed.

(** *** Slices *)

(** Row segment loop: writes columns [lo..hi) of one row. *)
Lemma row_seg_spec A m n f i lo hi (g : nat -> T) (body : nat -> matrix T -> outcome (matrix T)) :
  is_mat A m n f -> i < m -> lo <= hi -> hi <= n ->
  (forall j A', lo <= j < hi -> body j A' = mset A' i j (g j)) ->
  exists A', for_loop lo hi body A = Ret A' /\
    is_mat A' m n (fun a b => if (a =? i) && ((lo <=? b) && (b <? hi)) then g b else f a b).
Proof.
  intros H Hi Hlo Hhi Hb.
  destruct (for_loop_ind (fun j A' =>
     is_mat A' m n (fun a b => if (a =? i) && ((lo <=? b) && (b <? j)) then g b else f a b)) body lo hi A)
     as (A' & E & H').
  - lia.
  - eapply is_mat_ext; [|exact H]. intros a b Ha Hb'. bcase.
  - intros j A' Hj HA'. rewrite Hb by lia.
    destruct (mset_spec A' m n _ i j (g j) HA') as (A2 & E2 & H2); [lia|lia|].
    exists A2. split; [assumption|]. eapply is_mat_ext; [|exact H2].
    intros a b Ha Hb'. unfold fupd. bcase.
  - eauto.
Qed.

Lemma block_spec A m n f r0 r1 c0 c1 (g : nat -> nat -> T)
  (body : nat -> nat -> matrix T -> outcome (matrix T)) :
  is_mat A m n f -> r0 <= r1 -> r1 <= m -> c0 <= c1 -> c1 <= n ->
  (forall i j A', r0 <= i < r1 -> c0 <= j < c1 -> body i j A' = mset A' i j (g i j)) ->
  exists A', for_loop r0 r1 (fun i A => for_loop c0 c1 (fun j A => body i j A) A) A = Ret A' /\
    is_mat A' m n (fun a b => if ((r0 <=? a) && (a <? r1)) && ((c0 <=? b) && (b <? c1)) then g a b else f a b).
Proof.
  intros H Hr Hr1 Hc Hc1 Hb.
  destruct (for_loop_ind (fun i A' =>
     is_mat A' m n (fun a b => if ((r0 <=? a) && (a <? i)) && ((c0 <=? b) && (b <? c1)) then g a b else f a b))
     (fun i A => for_loop c0 c1 (fun j A => body i j A) A) r0 r1 A)
     as (A' & E & H').
  - lia.
  - eapply is_mat_ext; [|exact H]. intros a b Ha Hb'. bcase.
  - intros i A' Hi HA'.
    destruct (row_seg_spec A' m n _ i c0 c1 (g i) (fun j A => body i j A) HA') as (A2 & E2 & H2); try lia.
    { intros j A2 Hj. apply Hb; lia. }
    exists A2. split; [assumption|]. eapply is_mat_ext; [|exact H2].
    intros a b Ha Hb'. bcase.
  - eauto.
Qed.

(** Reading block: target cell shifted. *)
Lemma mget_slice_spec A m n f rs re cs ce :
  is_mat A m n f -> rs <= re -> re < m -> cs <= ce -> ce < n ->
  exists S, mget_slice A rs re cs ce = Ret S /\
    is_mat S (re - rs + 1) (ce - cs + 1) (fun i j => f (rs + i) (cs + j)).
Proof.
  intros H Hr Hre Hc Hce. pose proof (is_mat_dim _ _ _ _ H) as [R C].
  unfold mget_slice. rewrite R, C.
  replace (rs <? m) with true by (symmetry; apply Nat.ltb_lt; lia).
  replace (re <? m) with true by (symmetry; apply Nat.ltb_lt; lia).
  replace (cs <? n) with true by (symmetry; apply Nat.ltb_lt; lia).
  replace (ce <? n) with true by (symmetry; apply Nat.ltb_lt; lia).
  cbn [rassert bind]. rewrite !usub_ok by assumption. cbn [bind].
  set (M := re - rs + 1). set (N := ce - cs + 1).
  set (inner := fun r S => for_loop cs (ce + 1) (fun c S =>
      let! ir := usub r rs in let! ic := usub c cs in let! x := mget A r c in mset S ir ic x) S).
  destruct (for_loop_ind (fun r S => is_mat S M N
      (fun i j => if i <? r - rs then f (rs + i) (cs + j) else zero))
      inner rs (re + 1) (mzero M N)) as (S & E & HS).
  - lia.
  - eapply is_mat_ext; [|apply mzero_spec]. intros i j Hi Hj. cbn beta. bcase.
  - intros r S Hr' HS. unfold inner.
    destruct (for_loop_ind (fun c S => is_mat S M N
      (fun i j => if (i <? r - rs) || ((i =? r - rs) && (j <? c - cs)) then f (rs + i) (cs + j) else zero))
      (fun c S => let! ir := usub r rs in let! ic := usub c cs in let! x := mget A r c in mset S ir ic x)
      cs (ce + 1) S) as (S2 & E2 & HS2).
    + lia.
    + eapply is_mat_ext; [|exact HS]. intros i j Hi Hj. cbn beta. bcase.
    + intros c S' Hc' HS'. rewrite !usub_ok by lia. cbn [bind].
      rewrite (is_mat_get _ _ _ _ _ _ H) by lia. cbn [bind].
      destruct (mset_spec S' M N _ (r - rs) (c - cs) (f r c) HS') as (S3 & E3 & H3);
        [unfold M; lia|unfold N; lia|].
      exists S3. split; [assumption|]. eapply is_mat_ext; [|exact H3].
      intros i j Hi Hj. unfold fupd.
      destruct (Nat.eqb_spec i (r - rs)); destruct (Nat.eqb_spec j (c - cs)); cbn [andb]; [|bcase..].
      subst i j. replace (rs + (r - rs)) with r by lia. replace (cs + (c - cs)) with c by lia. bcase.
    + exists S2. split; [assumption|]. eapply is_mat_ext; [|exact HS2].
      intros i j Hi Hj. cbn beta. unfold N in *. bcase.
  - exists S. split; [assumption|]. eapply is_mat_ext; [|exact HS].
    intros i j Hi Hj. cbn beta. unfold M in *. bcase.
Qed.

Lemma mget_slice_panic A rs re cs ce :
  rows A <= rs \/ rows A <= re \/ cols A <= cs \/ cols A <= ce \/ re < rs \/ ce < cs ->
  mget_slice A rs re cs ce = Panic.
Proof.
  intros H. unfold mget_slice.
  destruct (Nat.ltb_spec rs (rows A)); [|reflexivity]. cbn [rassert bind].
  destruct (Nat.ltb_spec re (rows A)); [|reflexivity]. cbn [rassert bind].
  destruct (Nat.ltb_spec cs (cols A)); [|reflexivity]. cbn [rassert bind].
  destruct (Nat.ltb_spec ce (cols A)); [|reflexivity]. cbn [rassert bind].
  unfold usub. destruct (Nat.leb_spec rs re); [|reflexivity]. cbn [rassert bind].
  destruct (Nat.leb_spec cs ce); [|reflexivity]. lia.
Qed.

Lemma mset_slice_spec A m n f S p q g r c :
  is_mat A m n f -> is_mat S p q g -> r + p <= m -> c + q <= n ->
  exists B, mset_slice A S r c = Ret B /\
    is_mat B m n (fun i j => if ((r <=? i) && (i <? r + p)) && ((c <=? j) && (j <? c + q))
                             then g (i - r) (j - c) else f i j).
Proof.
  intros HA HS Hr Hc. pose proof (is_mat_dim _ _ _ _ HA) as [R C]. pose proof (is_mat_dim _ _ _ _ HS) as [Rs Cs].
  unfold mset_slice. rewrite R, C, Rs, Cs.
  replace (r + p <=? m) with true by (symmetry; apply Nat.leb_le; lia).
  replace (c + q <=? n) with true by (symmetry; apply Nat.leb_le; lia).
  cbn [rassert bind].
  apply (block_spec A m n f r (r + p) c (c + q) (fun i j => g (i - r) (j - c))
    (fun r0 c0 A0 => let! ir := usub r0 r in let! ic := usub c0 c in let! x := mget S ir ic in mset A0 r0 c0 x));
    auto; try lia.
  intros i j A' Hi Hj. rewrite !usub_ok by lia. cbn [bind].
  rewrite (is_mat_get _ _ _ _ _ _ HS) by lia. reflexivity.
Qed.

Lemma mset_slice_panic A S r c : rows A < r + rows S \/ cols A < c + cols S -> mset_slice A S r c = Panic.
Proof.
  intros H. unfold mset_slice.
  destruct (Nat.leb_spec (r + rows S) (rows A)); [|reflexivity]. cbn [rassert bind].
  destruct (Nat.leb_spec (c + cols S) (cols A)); [|reflexivity]. lia.
Qed.

(** *** Vector slices *)

Lemma vget_slice_gen v n f s e :
  (forall i, i < n -> vvget v i = Ret (f i)) ->
  (if rows v =? 1 then cols v = n else rows v = n) ->
  s <= e -> e < n ->
  exists w, vget_slice v s e = Ret w /\ is_col w (e - s + 1) (fun i => f (s + i)).
Proof.
  intros Hget Hn Hs He. unfold vget_slice.
  assert (Ea : (if rows v =? 1
             then let! _ := rassert (s <? cols v) in rassert (e <? cols v)
             else let! _ := rassert (s <? rows v) in rassert (e <? rows v)) = Ret tt).
  { destruct (rows v =? 1); rewrite Hn;
    replace (s <? n) with true by (symmetry; apply Nat.ltb_lt; lia);
    replace (e <? n) with true by (symmetry; apply Nat.ltb_lt; lia); reflexivity. }
  rewrite Ea. cbn [bind]. rewrite usub_ok by assumption. cbn [bind].
  set (M := e - s + 1).
  match goal with |- exists w, for_loop s (e + 1) ?body _ = _ /\ _ => set (bd := body) end.
  destruct (for_loop_ind (fun r w => is_col w M (fun i => if i <? r - s then f (s + i) else zero))
    bd s (e + 1) (vzero M)) as (w & E & Hw).
  - lia.
  - eapply col_ext; [|apply vzero_spec]. intros i Hi. bcase.
  - intros r w Hr Hw. unfold bd. rewrite Hget by lia. cbn [bind]. rewrite usub_ok by lia. cbn [bind].
    destruct (col_set w M _ (r - s) (f r) Hw) as (w2 & E2 & H2); [unfold M; lia|].
    exists w2. split; [assumption|]. eapply col_ext; [|exact H2]. intros i Hi. unfold upd1.
    destruct (Nat.eqb_spec i (r - s)); [subst i; replace (s + (r - s)) with r by lia|]; bcase.
  - exists w. split; [assumption|]. eapply col_ext; [|exact Hw]. intros i Hi. unfold M in *. bcase.
Qed.

Lemma vget_slice_col v m f s e : is_col v m f -> s <= e -> e < m ->
  exists w, vget_slice v s e = Ret w /\ is_col w (e - s + 1) (fun i => f (s + i)).
Proof.
  intros H Hs He. apply (vget_slice_gen v m); auto.
  - intros. eapply col_get; eauto.
  - destruct (is_mat_dim _ _ _ _ H) as [R C]. rewrite R, C.
    destruct (Nat.eqb_spec m 1); [auto|reflexivity].
Qed.

Lemma vget_slice_row v m f s e : is_row v m f -> s <= e -> e < m ->
  exists w, vget_slice v s e = Ret w /\ is_col w (e - s + 1) (fun i => f (s + i)).
Proof.
  intros H Hs He. apply (vget_slice_gen v m); auto.
  - intros. eapply row_get; eauto.
  - destruct (is_mat_dim _ _ _ _ H) as [R C]. rewrite R, C. reflexivity.
Qed.

Lemma vset_slice_col v m f w p g s : is_col v m f -> is_col w p g -> s + p <= m ->
  exists u, vset_slice v w s = Ret u /\
    is_col u m (fun i => if (s <=? i) && (i <? s + p) then g (i - s) else f i).
Proof.
  intros Hv Hw Hs. destruct (is_mat_dim _ _ _ _ Hv) as [R C]. destruct (is_mat_dim _ _ _ _ Hw) as [Rw Cw].
  unfold vset_slice. rewrite R, Rw.
  replace (s + p <=? m) with true by (symmetry; apply Nat.leb_le; lia). cbn [rassert bind].
  match goal with |- exists w, for_loop s _ ?body _ = _ /\ _ => set (bd := body) end.
  destruct (for_loop_ind (fun r u => is_col u m (fun i => if (s <=? i) && (i <? r) then g (i - s) else f i))
    bd s (s + p) v) as (u & E & Hu).
  - lia.
  - eapply col_ext; [|exact Hv]. intros i Hi. bcase.
  - intros r u Hr Hu. unfold bd. rewrite usub_ok by lia. cbn [bind].
    rewrite (col_get _ _ _ _ Hw) by lia. cbn [bind].
    destruct (col_set u m _ r (g (r - s)) Hu) as (u2 & E2 & H2); [lia|].
    exists u2. split; [assumption|]. eapply col_ext; [|exact H2]. intros i Hi. unfold upd1. bcase.
  - eauto.
Qed.

(** *** Products *)

Lemma mmul_vec_spec A m n f v g : is_mat A m n f -> is_col v n g ->
  exists w, mmul_vec A v = Ret w /\ is_col w m (fun i => sumn n (fun k => mul (f i k) (g k))).
Proof.
  intros HA Hv. destruct (is_mat_dim _ _ _ _ HA) as [R C]. destruct (is_mat_dim _ _ _ _ Hv) as [Rv Cv].
  unfold mmul_vec. rewrite R, C, Rv, Nat.eqb_refl. cbn [rassert bind].
  rewrite (push_loop m (fun i => sumn n (fun k => mul (f i k) (g k)))).
  - cbn [bind]. destruct (vnew_column_spec m (map (fun i => sumn n (fun k => mul (f i k) (g k))) (seq 0 m)) zero)
      as (w & E & Hw).
    + rewrite map_length, seq_length. reflexivity.
    + exists w. split; [assumption|]. eapply col_ext; [|exact Hw].
      intros i Hi. apply (nth_map_seq (fun i => sumn n (fun k => mul (f i k) (g k)))). assumption.
  - intros k d Hk. rewrite (sum_loop n (fun l => mul (f k l) (g l))); [reflexivity|].
    intros l s Hl. rewrite (is_mat_vget _ _ _ _ _ _ HA) by lia. cbn [bind].
    rewrite (col_get _ _ _ _ Hv) by lia. reflexivity.
Qed.

Lemma mmul_vec_panic A v : cols A <> rows v -> mmul_vec A v = Panic.
Proof. intros H. unfold mmul_vec. apply Nat.eqb_neq in H. rewrite H. reflexivity. Qed.

Lemma vmul_mat_spec A m n f v g : is_mat A m n f -> is_row v m g ->
  exists w, vmul_mat v A = Ret w /\ is_row w n (fun j => sumn m (fun k => mul (g k) (f k j))).
Proof.
  intros HA Hv. destruct (is_mat_dim _ _ _ _ HA) as [R C]. destruct (is_mat_dim _ _ _ _ Hv) as [Rv Cv].
  unfold vmul_mat. rewrite R, C, Cv, Nat.eqb_refl. cbn [rassert bind].
  rewrite (push_loop n (fun j => sumn m (fun k => mul (g k) (f k j)))).
  - cbn [bind]. destruct (vnew_row_spec n (map (fun j => sumn m (fun k => mul (g k) (f k j))) (seq 0 n)) zero)
      as (w & E & Hw).
    + rewrite map_length, seq_length. reflexivity.
    + exists w. split; [assumption|]. eapply row_ext; [|exact Hw].
      intros i Hi. apply (nth_map_seq (fun j => sumn m (fun k => mul (g k) (f k j)))). assumption.
  - intros j d Hj. rewrite (sum_loop m (fun k => mul (g k) (f k j))); [reflexivity|].
    intros l s Hl. rewrite (row_get _ _ _ _ Hv) by lia. cbn [bind].
    rewrite (is_mat_get _ _ _ _ _ _ HA) by lia. reflexivity.
Qed.

Lemma vmul_mat_panic A v : cols v <> rows A -> vmul_mat v A = Panic.
Proof. intros H. unfold vmul_mat. apply Nat.eqb_neq in H. rewrite H. reflexivity. Qed.

Lemma vdotp_spec v w m f g : 0 < m -> is_col v m f -> is_col w m g ->
  vdotp v w = Ret (sumn m (fun i => mul (f i) (g i))).
Proof.
  intros Hm Hv Hw. destruct (is_mat_dim _ _ _ _ Hv) as [R C]. destruct (is_mat_dim _ _ _ _ Hw) as [Rw Cw].
  unfold vdotp. rewrite R, C, Rw, Cw, !Nat.eqb_refl.
  replace (m =? 0) with false by (symmetry; apply Nat.eqb_neq; lia). cbn [negb rassert bind].
  destruct (vtranspose_col v m f Hm Hv) as (t & Et & Ht). rewrite Et. cbn [bind].
  destruct (mmul_spec t w 1 m 1 _ _ Ht Hw) as (P & EP & HP). rewrite EP. cbn [bind].
  rewrite (is_mat_get _ _ _ _ 0 0 HP) by lia. reflexivity.
Qed.

Lemma vdotp_panic v w : rows v = 0 \/ cols v <> 1 \/ dim v <> dim w -> vdotp v w = Panic.
Proof.
  intros H. unfold vdotp. destruct (Nat.eqb_spec (rows v) 0); [reflexivity|]. cbn [negb rassert bind].
  destruct (Nat.eqb_spec (cols v) 1); [|reflexivity]. cbn [rassert bind].
  destruct (Nat.eqb_spec (rows v) (rows w)); [|reflexivity]. cbn [rassert bind].
  destruct (Nat.eqb_spec (cols v) (cols w)); [|reflexivity].
  exfalso. destruct H as [H|[H|H]]; try contradiction. apply H. unfold dim. congruence.
Qed.

Lemma vdyadp_spec v w m n f g : is_col v m f -> is_col w n g ->
  exists C, vdyadp v w = Ret C /\ is_mat C m n (fun i j => mul (f i) (g j)).
Proof.
  intros Hv Hw. pose proof (is_mat_rows _ _ _ _ Hv) as R. pose proof (is_mat_rows _ _ _ _ Hw) as Rw.
  unfold vdyadp. rewrite R, Rw.
  apply (full_loop_spec _ m n _ (fun i j => mul (f i) (g j)) (fun i j c =>
    let! x := vvget v i in let! y := vvget w j in mset c i j (mul x y)) (mzero_spec m n)).
  intros i j A' Hi Hj _. rewrite (col_get _ _ _ _ Hv Hi), (col_get _ _ _ _ Hw Hj). reflexivity.
Qed.

End WithOps.
