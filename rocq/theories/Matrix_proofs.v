(** Lemmas about the matrix model. *)
From Coq Require Import Arith List Bool Lia.
From Verif Require Import Outcome Scalar Matrix_model Vector_model Matrix_spec.
Import ListNotations.
Local Open Scope nat_scope.

(** Case analysis on all boolean comparisons of naturals in the goal. *)
Ltac bcase :=
  cbv beta;
  repeat match goal with
  | |- context [(?a =? ?b)] => destruct (Nat.eqb_spec a b)
  | |- context [(?a <? ?b)] => destruct (Nat.ltb_spec a b)
  | |- context [(?a <=? ?b)] => destruct (Nat.leb_spec a b)
  end; subst; simpl; try lia; auto.

Lemma idx_bound m n i j : i < m -> j < n -> j * m + i < m * n.
Proof. intros. nia. Qed.

Lemma idx_inj m i j i' j' : i < m -> i' < m -> j * m + i = j' * m + i' -> i = i' /\ j = j'.
Proof. intros. assert (j = j') by nia. subst. lia. Qed.

Lemma idx_divmod m n x : x < m * n -> x mod m < m /\ x / m < n /\ x = (x / m) * m + x mod m.
Proof.
  intros. assert (m <> 0) by nia. repeat split.
  - apply Nat.mod_upper_bound; assumption.
  - apply Nat.div_lt_upper_bound; lia.
  - rewrite (Nat.div_mod x m) at 1 by assumption. lia.
Qed.

Section Generic.
Context {T : Type}.
Implicit Types A B C : matrix T.

Lemma is_mat_dim A m n f : is_mat A m n f -> rows A = m /\ cols A = n.
Proof. intros (H & _). unfold dim in H. injection H; auto. Qed.
Lemma is_mat_rows A m n f : is_mat A m n f -> rows A = m.
Proof. intro H; apply is_mat_dim in H; tauto. Qed.
Lemma is_mat_cols A m n f : is_mat A m n f -> cols A = n.
Proof. intro H; apply is_mat_dim in H; tauto. Qed.
Lemma is_mat_len A m n f : is_mat A m n f -> length (data A) = m * n.
Proof. intros (_ & H & _); exact H. Qed.
Lemma is_mat_get A m n f i j : is_mat A m n f -> i < m -> j < n -> mget A i j = Ret (f i j).
Proof. intros (_ & _ & H); auto. Qed.
Lemma is_mat_wf A m n f : is_mat A m n f -> wf A.
Proof.
  intros H. unfold wf. rewrite (is_mat_len _ _ _ _ H), (is_mat_rows _ _ _ _ H), (is_mat_cols _ _ _ _ H).
  reflexivity.
Qed.

Lemma mget_in A i j : i < rows A -> j < cols A -> mget A i j = vget (data A) (j * rows A + i).
Proof.
  intros Hi Hj. unfold mget. apply Nat.ltb_lt in Hi, Hj. rewrite Hi, Hj. reflexivity.
Qed.

Lemma mget_panic A i j : rows A <= i \/ cols A <= j -> mget A i j = Panic.
Proof.
  intros H. unfold mget. destruct (i <? rows A) eqn:Ei; simpl; [|reflexivity].
  destruct (j <? cols A) eqn:Ej; simpl; [|reflexivity].
  apply Nat.ltb_lt in Ei, Ej. lia.
Qed.

Lemma mget_ret_range A i j x : mget A i j = Ret x -> i < rows A /\ j < cols A.
Proof.
  unfold mget. destruct (i <? rows A) eqn:Ei; simpl; [|discriminate].
  destruct (j <? cols A) eqn:Ej; simpl; [|discriminate].
  apply Nat.ltb_lt in Ei, Ej. auto.
Qed.

Lemma is_mat_vget A m n f i j :
  is_mat A m n f -> i < m -> j < n -> vget (data A) (j * m + i) = Ret (f i j).
Proof.
  intros H Hi Hj. pose proof (is_mat_get _ _ _ _ i j H Hi Hj) as E.
  rewrite mget_in in E; rewrite ?(is_mat_rows _ _ _ _ H), ?(is_mat_cols _ _ _ _ H) in *; auto.
Qed.

Lemma is_mat_intro A m n f :
  rows A = m -> cols A = n -> length (data A) = m * n ->
  (forall i j, i < m -> j < n -> vget (data A) (j * m + i) = Ret (f i j)) ->
  is_mat A m n f.
Proof.
  intros Hr Hc Hl H. split; [unfold dim; congruence|]. split; [assumption|].
  intros i j Hi Hj. rewrite mget_in by lia. rewrite Hr. auto.
Qed.

Lemma is_mat_ext A m n f g :
  (forall i j, i < m -> j < n -> f i j = g i j) -> is_mat A m n f -> is_mat A m n g.
Proof.
  intros E (H1 & H2 & H3). split; [assumption|]. split; [assumption|].
  intros i j Hi Hj. rewrite <- E by assumption. auto.
Qed.

Lemma is_mat_unique A B m n f : is_mat A m n f -> is_mat B m n f -> A = B.
Proof.
  intros HA HB. destruct A as [ma na da], B as [mb nb db].
  pose proof (is_mat_dim _ _ _ _ HA) as [? ?]. pose proof (is_mat_dim _ _ _ _ HB) as [? ?].
  simpl in *; subst. f_equal.
  pose proof (is_mat_len _ _ _ _ HA) as LA. pose proof (is_mat_len _ _ _ _ HB) as LB. simpl in *.
  apply list_ext_vget; [congruence|].
  intros x Hx. rewrite LA in Hx. destruct (idx_divmod _ _ _ Hx) as (H1 & H2 & H3).
  rewrite H3.
  pose proof (is_mat_vget _ _ _ _ _ _ HA H1 H2) as EA.
  pose proof (is_mat_vget _ _ _ _ _ _ HB H1 H2) as EB. simpl in *. congruence.
Qed.

Lemma is_mat_entry_unique A m n f g i j :
  is_mat A m n f -> is_mat A m n g -> i < m -> j < n -> f i j = g i j.
Proof.
  intros Hf Hg Hi Hj.
  pose proof (is_mat_get _ _ _ _ _ _ Hf Hi Hj). pose proof (is_mat_get _ _ _ _ _ _ Hg Hi Hj). congruence.
Qed.

Lemma is_mat_dim_unique A m n f m' n' g : is_mat A m n f -> is_mat A m' n' g -> m = m' /\ n = n'.
Proof.
  intros H H'. apply is_mat_dim in H, H'. destruct H, H'. subst. auto.
Qed.

(** The entries of a well-formed matrix, read with a default that is never used in range. *)
Definition entries (d : T) A : nat -> nat -> T := fun i j => nth (j * rows A + i) (data A) d.

Lemma wf_is_mat (d : T) A : wf A -> is_mat A (rows A) (cols A) (entries d A).
Proof.
  intro H. apply is_mat_intro; auto. intros i j Hi Hj. unfold entries.
  apply vget_ok. rewrite H. apply idx_bound; assumption.
Qed.

Lemma mset_spec A m n f i j v :
  is_mat A m n f -> i < m -> j < n ->
  exists A', mset A i j v = Ret A' /\ is_mat A' m n (fupd f i j v).
Proof.
  intros H Hi Hj. pose proof (is_mat_dim _ _ _ _ H) as [Hr Hc]. pose proof (is_mat_len _ _ _ _ H) as Hl.
  unfold mset. rewrite Hr, Hc.
  rewrite (rassert_true (i <? m)) by (apply Nat.ltb_lt; assumption).
  rewrite (rassert_true (j <? n)) by (apply Nat.ltb_lt; assumption). simpl.
  rewrite vset_ok by (rewrite Hl; apply idx_bound; assumption). simpl.
  eexists; split; [reflexivity|].
  apply is_mat_intro; simpl; auto.
  - rewrite length_list_upd; assumption.
  - intros a b Ha Hb. rewrite vget_list_upd by (rewrite Hl; apply idx_bound; assumption).
    unfold fupd. destruct (b * m + a =? j * m + i) eqn:E.
    + apply Nat.eqb_eq in E. apply idx_inj in E; auto. destruct E; subst.
      rewrite !Nat.eqb_refl. reflexivity.
    + replace ((a =? i) && (b =? j)) with false.
      * eapply is_mat_vget; eauto.
      * symmetry. apply andb_false_iff. apply Nat.eqb_neq in E.
        destruct (Nat.eq_dec a i); [right|left]; apply Nat.eqb_neq; [|assumption].
        intro; subst; apply E; reflexivity.
Qed.

Lemma mset_panic A i j v : rows A <= i \/ cols A <= j -> mset A i j v = Panic.
Proof.
  intros H. unfold mset. destruct (i <? rows A) eqn:Ei; simpl; [|reflexivity].
  destruct (j <? cols A) eqn:Ej; simpl; [|reflexivity].
  apply Nat.ltb_lt in Ei, Ej. lia.
Qed.

Lemma mnew_spec m n (d : list T) (dflt : T) :
  length d = m * n ->
  exists A, mnew m n d = Ret A /\ is_mat A m n (fun i j => nth (j * m + i) d dflt).
Proof.
  intro H. unfold mnew. rewrite rassert_true by (apply Nat.eqb_eq; auto). simpl.
  eexists; split; [reflexivity|]. apply is_mat_intro; simpl; auto.
  intros. apply vget_ok. rewrite H. apply idx_bound; assumption.
Qed.

Lemma mapply_spec (g : T -> T) A m n f :
  is_mat A m n f -> is_mat (mapply g A) m n (fun i j => g (f i j)).
Proof.
  intros H. pose proof (is_mat_dim _ _ _ _ H) as [Hr Hc]. pose proof (is_mat_len _ _ _ _ H) as Hl.
  apply is_mat_intro; simpl; auto.
  - rewrite map_length; assumption.
  - intros i j Hi Hj. pose proof (is_mat_vget _ _ _ _ _ _ H Hi Hj) as E.
    unfold vget in *. rewrite nth_error_map. destruct (nth_error (data A) (j * m + i)); [|discriminate].
    simpl. congruence.
Qed.

(** [for] loop that writes cell after cell of one column (row index varies). *)
Lemma col_loop_spec A m n f j (g : nat -> T) (body : nat -> matrix T -> outcome (matrix T)) :
  is_mat A m n f -> j < n ->
  (forall i A', i < m ->
     is_mat A' m n (fun a b => if (b =? j) && (a <? i) then g a else f a b) ->
     body i A' = mset A' i j (g i)) ->
  exists A', for_loop 0 m body A = Ret A' /\
    is_mat A' m n (fun a b => if b =? j then g a else f a b).
Proof.
  intros H Hj Hb.
  destruct (for_loop_ind (fun i A' =>
     is_mat A' m n (fun a b => if (b =? j) && (a <? i) then g a else f a b)) body 0 m A) as (A' & E & H').
  - lia.
  - eapply is_mat_ext; [|exact H]. intros a b Ha Hb'. simpl. rewrite andb_false_r. reflexivity.
  - intros i A' Hi HA'. rewrite Hb by (auto; lia).
    destruct (mset_spec A' m n _ i j (g i) HA') as (A2 & E2 & H2); [lia|assumption|].
    exists A2. split; [assumption|]. eapply is_mat_ext; [|exact H2].
    intros a b Ha Hb'. unfold fupd.
    destruct (b =? j) eqn:Eb; simpl; [|rewrite andb_false_r; reflexivity].
    rewrite andb_true_r. destruct (a =? i) eqn:Ea.
    + apply Nat.eqb_eq in Ea; subst. replace (i <? S i) with true by (symmetry; apply Nat.ltb_lt; lia). reflexivity.
    + apply Nat.eqb_neq in Ea. destruct (a <? i) eqn:E1; destruct (a <? S i) eqn:E2'; auto;
      [apply Nat.ltb_lt in E1; apply Nat.ltb_ge in E2' | apply Nat.ltb_ge in E1; apply Nat.ltb_lt in E2']; lia.
  - exists A'. split; [assumption|]. eapply is_mat_ext; [|exact H'].
    intros a b Ha Hb'. simpl. replace (a <? m) with true by (symmetry; apply Nat.ltb_lt; lia).
    rewrite andb_true_r. reflexivity.
Qed.

Lemma row_loop_spec A m n f i (g : nat -> T) (body : nat -> matrix T -> outcome (matrix T)) :
  is_mat A m n f -> i < m ->
  (forall j A', j < n ->
     is_mat A' m n (fun a b => if (a =? i) && (b <? j) then g b else f a b) ->
     body j A' = mset A' i j (g j)) ->
  exists A', for_loop 0 n body A = Ret A' /\
    is_mat A' m n (fun a b => if a =? i then g b else f a b).
Proof.
  intros H Hi Hb.
  destruct (for_loop_ind (fun j A' =>
     is_mat A' m n (fun a b => if (a =? i) && (b <? j) then g b else f a b)) body 0 n A) as (A' & E & H').
  - lia.
  - eapply is_mat_ext; [|exact H]. intros a b Ha Hb'. simpl. rewrite andb_false_r. reflexivity.
  - intros j A' Hj HA'. rewrite Hb by (auto; lia).
    destruct (mset_spec A' m n _ i j (g j) HA') as (A2 & E2 & H2); [lia|lia|].
    exists A2. split; [assumption|]. eapply is_mat_ext; [|exact H2].
    intros a b Ha Hb'. unfold fupd.
    destruct (a =? i) eqn:Eb; simpl; [|reflexivity].
    destruct (b =? j) eqn:Ea.
    + apply Nat.eqb_eq in Ea; subst. replace (j <? S j) with true by (symmetry; apply Nat.ltb_lt; lia). reflexivity.
    + apply Nat.eqb_neq in Ea. destruct (b <? j) eqn:E1; destruct (b <? S j) eqn:E2'; auto;
      [apply Nat.ltb_lt in E1; apply Nat.ltb_ge in E2' | apply Nat.ltb_ge in E1; apply Nat.ltb_lt in E2']; lia.
  - exists A'. split; [assumption|]. eapply is_mat_ext; [|exact H'].
    intros a b Ha Hb'. simpl. replace (b <? n) with true by (symmetry; apply Nat.ltb_lt; lia).
    rewrite andb_true_r. reflexivity.
Qed.

(** Nested loop (rows outside) that writes every cell of an m x n matrix. *)
Lemma full_loop_spec A m n f (g : nat -> nat -> T) (body : nat -> nat -> matrix T -> outcome (matrix T)) :
  is_mat A m n f ->
  (forall i j A', i < m -> j < n ->
     (exists f', is_mat A' m n f') ->
     body i j A' = mset A' i j (g i j)) ->
  exists A', for_loop 0 m (fun i A => for_loop 0 n (fun j A => body i j A) A) A = Ret A' /\
    is_mat A' m n g.
Proof.
  intros H Hb.
  destruct (for_loop_ind (fun i A' =>
     is_mat A' m n (fun a b => if a <? i then g a b else f a b))
     (fun i A => for_loop 0 n (fun j A => body i j A) A) 0 m A) as (A' & E & H').
  - lia.
  - eapply is_mat_ext; [|exact H]. intros a b Ha Hb'. reflexivity.
  - intros i A' Hi HA'.
    destruct (row_loop_spec A' m n _ i (fun b => g i b) (fun j A => body i j A) HA') as (A2 & E2 & H2).
    + lia.
    + intros j A2 Hj HA2. apply Hb; [lia|lia|eauto].
    + exists A2. split; [assumption|]. eapply is_mat_ext; [|exact H2].
      intros a b Ha Hb'. simpl. destruct (a =? i) eqn:Ea.
      * apply Nat.eqb_eq in Ea; subst. replace (i <? S i) with true by (symmetry; apply Nat.ltb_lt; lia). reflexivity.
      * apply Nat.eqb_neq in Ea. destruct (a <? i) eqn:E1; destruct (a <? S i) eqn:E2'; auto;
        [apply Nat.ltb_lt in E1; apply Nat.ltb_ge in E2' | apply Nat.ltb_ge in E1; apply Nat.ltb_lt in E2']; lia.
  - exists A'. split; [assumption|]. eapply is_mat_ext; [|exact H'].
    intros a b Ha Hb'. simpl. replace (a <? m) with true by (symmetry; apply Nat.ltb_lt; lia). reflexivity.
Qed.

End Generic.

Section WithOps.
Context {T : Type} {O : Ops T}.
Implicit Types A B C : matrix T.

Lemma vget_repeat (x : T) n k : k < n -> vget (repeat x n) k = Ret x.
Proof.
  intros. unfold vget. rewrite nth_error_repeat by assumption. reflexivity.
Qed.

Lemma mzero_spec m n : is_mat (mzero m n) m n (fun _ _ => zero).
Proof.
  apply is_mat_intro; simpl; auto using repeat_length.
  intros. apply vget_repeat. apply idx_bound; assumption.
Qed.

Lemma mones_spec m n : is_mat (mones m n) m n (fun _ _ => one).
Proof.
  apply is_mat_intro; simpl; auto using repeat_length.
  intros. apply vget_repeat. apply idx_bound; assumption.
Qed.

Lemma mone_spec n : exists I, mone n = Ret I /\ is_mat I n n delta.
Proof.
  unfold mone.
  destruct (for_loop_ind (fun i d => is_mat (mkMatrix n n d) n n (fun a b => if a <? i then delta a b else zero))
     (fun i d => vset d (i * n + i) one) 0 n (repeat zero (n * n))) as (d & E & H).
  - lia.
  - exact (mzero_spec n n).
  - intros i d Hi Hd. pose proof (is_mat_len _ _ _ _ Hd) as Hl. simpl in Hl. rewrite vset_ok.
    2:{ rewrite Hl. apply idx_bound; lia. }
    eexists; split; [reflexivity|].
    destruct (mset_spec _ n n _ i i one Hd) as (A' & E' & H'); [lia|lia|].
    unfold mset in E'; simpl in E'.
    rewrite (rassert_true (i <? n)) in E' by (apply Nat.ltb_lt; lia). simpl in E'.
    rewrite vset_ok in E' by (rewrite Hl; apply idx_bound; lia). simpl in E'.
    injection E' as <-. eapply is_mat_ext; [|exact H'].
    intros a b Ha Hb. unfold fupd, delta.
    destruct (a =? i) eqn:Ea; simpl.
    + apply Nat.eqb_eq in Ea; subst. replace (i <? i) with false by (symmetry; apply Nat.ltb_ge; lia).
      replace (i <? S i) with true by (symmetry; apply Nat.ltb_lt; lia).
      rewrite (Nat.eqb_sym b i). reflexivity.
    + apply Nat.eqb_neq in Ea. destruct (a <? i) eqn:E1; destruct (a <? S i) eqn:E2'; auto;
        [apply Nat.ltb_lt in E1; apply Nat.ltb_ge in E2' | apply Nat.ltb_ge in E1; apply Nat.ltb_lt in E2']; lia.
  - rewrite E. simpl. eexists; split; [reflexivity|]. eapply is_mat_ext; [|exact H].
    intros a b Ha Hb. simpl. replace (a <? n) with true by (symmetry; apply Nat.ltb_lt; lia). reflexivity.
Qed.

Lemma zip_spec (op : T -> T -> T) (a b : list T) k x y :
  vget a k = Ret x -> vget b k = Ret y ->
  vget (map (fun p => op (fst p) (snd p)) (combine a b)) k = Ret (op x y).
Proof.
  revert b k; induction a as [|h t IH]; intros [|h' t'] [|k] Ha Hb; try discriminate; simpl in *.
  - unfold vget in *; simpl in *. congruence.
  - apply (IH t' k); assumption.
Qed.

Lemma zip_length (op : T -> T -> T) (a b : list T) :
  length a = length b -> length (map (fun p => op (fst p) (snd p)) (combine a b)) = length a.
Proof. intros. rewrite map_length, combine_length. lia. Qed.

Lemma madd_spec A B m n f g :
  is_mat A m n f -> is_mat B m n g ->
  exists C, madd A B = Ret C /\ is_mat C m n (fun i j => add (f i j) (g i j)).
Proof.
  intros HA HB. pose proof (is_mat_dim _ _ _ _ HA) as [Ra Ca]. pose proof (is_mat_dim _ _ _ _ HB) as [Rb Cb].
  unfold madd. rewrite Ra, Ca, Rb, Cb, !Nat.eqb_refl. simpl.
  eexists; split; [reflexivity|].
  pose proof (is_mat_len _ _ _ _ HA). pose proof (is_mat_len _ _ _ _ HB).
  apply is_mat_intro; simpl; auto.
  - rewrite zip_length; congruence.
  - intros. apply zip_spec; eapply is_mat_vget; eauto.
Qed.

Lemma msub_spec A B m n f g :
  is_mat A m n f -> is_mat B m n g ->
  exists C, msub A B = Ret C /\ is_mat C m n (fun i j => sub (f i j) (g i j)).
Proof.
  intros HA HB. pose proof (is_mat_dim _ _ _ _ HA) as [Ra Ca]. pose proof (is_mat_dim _ _ _ _ HB) as [Rb Cb].
  unfold msub. rewrite Ra, Ca, Rb, Cb, !Nat.eqb_refl. simpl.
  eexists; split; [reflexivity|].
  pose proof (is_mat_len _ _ _ _ HA). pose proof (is_mat_len _ _ _ _ HB).
  apply is_mat_intro; simpl; auto.
  - rewrite zip_length; congruence.
  - intros. apply zip_spec; eapply is_mat_vget; eauto.
Qed.

Lemma dims_eqb_false A B : dim A <> dim B -> (rows A =? rows B) && (cols A =? cols B) = false.
Proof.
  intro H. apply andb_false_iff. destruct (Nat.eq_dec (rows A) (rows B)).
  - right. apply Nat.eqb_neq. intro. apply H. unfold dim. congruence.
  - left. apply Nat.eqb_neq. assumption.
Qed.

Lemma madd_panic A B : dim A <> dim B -> madd A B = Panic.
Proof. intro H. unfold madd. rewrite (dims_eqb_false A B H). reflexivity. Qed.
Lemma msub_panic A B : dim A <> dim B -> msub A B = Panic.
Proof. intro H. unfold msub. rewrite (dims_eqb_false A B H). reflexivity. Qed.

(** Accumulation loops are [sumn]. *)
Lemma sum_loop (n : nat) (g : nat -> T) (body : nat -> T -> outcome T) :
  (forall k s, k < n -> body k s = Ret (add s (g k))) ->
  for_loop 0 n body zero = Ret (sumn n g).
Proof.
  intro H.
  destruct (for_loop_ind (fun k s => s = sumn k g) body 0 n zero) as (s & E & Hs).
  - lia.
  - reflexivity.
  - intros i s Hi ->. rewrite H by lia. eexists; split; reflexivity.
  - congruence.
Qed.

Lemma mmul_spec A B m k n f g :
  is_mat A m k f -> is_mat B k n g ->
  exists C, mmul A B = Ret C /\ is_mat C m n (mulf k f g).
Proof.
  intros HA HB. pose proof (is_mat_dim _ _ _ _ HA) as [Ra Ca]. pose proof (is_mat_dim _ _ _ _ HB) as [Rb Cb].
  unfold mmul. rewrite Ra, Ca, Rb, Cb, !Nat.eqb_refl. simpl.
  apply (full_loop_spec _ m n _ (mulf k f g) _ (mzero_spec m n)).
  intros i j P Hi Hj _.
  rewrite (sum_loop k (fun l => mul (f i l) (g l j))); [reflexivity|].
  intros l s Hl. rewrite (is_mat_get _ _ _ _ _ _ HA) by lia. simpl.
  rewrite (is_mat_get _ _ _ _ _ _ HB) by lia. reflexivity.
Qed.

Lemma mmul_panic A B : cols A <> rows B -> mmul A B = Panic.
Proof. intro H. unfold mmul. apply Nat.eqb_neq in H. rewrite H. reflexivity. Qed.

(** Row exchange, as a function on entries. *)
Definition swapf (i j : nat) (f : nat -> nat -> T) : nat -> nat -> T :=
  fun a b => if a =? i then f j b else if a =? j then f i b else f a b.

Lemma mswap_rows_spec A m n f i j :
  is_mat A m n f -> i < m -> j < m ->
  exists C, mswap_rows A i j = Ret C /\ is_mat C m n (swapf i j f).
Proof.
  intros HA Hi Hj. pose proof (is_mat_dim _ _ _ _ HA) as [Ra Ca].
  unfold mswap_rows. rewrite Ca.
  destruct (for_loop_ind (fun k C => is_mat C m n (fun a b => if b <? k then swapf i j f a b else f a b))
    (fun k A => let! temp := mget A i k in let! x := mget A j k in
                let! A := mset A i k x in mset A j k temp) 0 n A) as (C & E & H).
  - lia.
  - eapply is_mat_ext; [|exact HA]. reflexivity.
  - intros k C Hk HC.
    rewrite (is_mat_get _ _ _ _ i k HC) by lia. simpl.
    rewrite (is_mat_get _ _ _ _ j k HC) by lia. simpl.
    replace (k <? k) with false by (symmetry; apply Nat.ltb_ge; lia).
    destruct (mset_spec C m n _ i k (f j k) HC) as (C1 & E1 & H1); [lia|lia|].
    rewrite E1. simpl.
    destruct (mset_spec C1 m n _ j k (f i k) H1) as (C2 & E2 & H2); [lia|lia|].
    exists C2. split; [assumption|]. eapply is_mat_ext; [|exact H2].
    intros a b Ha Hb. unfold fupd, swapf.
    destruct (b =? k) eqn:Eb.
    + apply Nat.eqb_eq in Eb; subst. rewrite !andb_true_r.
      replace (k <? S k) with true by (symmetry; apply Nat.ltb_lt; lia).
      replace (k <? k) with false by (symmetry; apply Nat.ltb_ge; lia).
      destruct (a =? j) eqn:Ej; destruct (a =? i) eqn:Ei; auto.
      apply Nat.eqb_eq in Ej, Ei. subst. reflexivity.
    + rewrite !andb_false_r. apply Nat.eqb_neq in Eb.
      replace (b <? S k) with (b <? k); [reflexivity|].
      destruct (b <? k) eqn:E1'; destruct (b <? S k) eqn:E2'; auto;
        [apply Nat.ltb_lt in E1'; apply Nat.ltb_ge in E2' | apply Nat.ltb_ge in E1'; apply Nat.ltb_lt in E2']; lia.
  - exists C. split; [assumption|]. eapply is_mat_ext; [|exact H].
    intros a b Ha Hb. simpl. replace (b <? n) with true by (symmetry; apply Nat.ltb_lt; lia). reflexivity.
Qed.

Lemma mtrace_spec A n f : is_mat A n n f -> mtrace A = Ret (sumn n (fun i => f i i)).
Proof.
  intros HA. pose proof (is_mat_dim _ _ _ _ HA) as [Ra Ca].
  unfold mtrace. rewrite Ra, Ca, Nat.eqb_refl. simpl.
  apply sum_loop. intros k s Hk. rewrite (is_mat_get _ _ _ _ _ _ HA) by lia. reflexivity.
Qed.

End WithOps.
