(** Lemmas about equality, approximate equality, iteration, extrema and product laws. *)
From Coq Require Import Arith List Bool Lia Ring_theory Ring.
From Verif Require Import Outcome Scalar Matrix_model Transpose_model Vector_model Approx_model Matrix_spec
  Matrix_proofs Transpose_proofs Vector_proofs Sums.
Import ListNotations.
Local Open Scope nat_scope.

Section Eq.
Context {T : Type} {O : Ops T}.
Implicit Types A B C : matrix T.

Lemma vec_eqb_iff (a b : list T) :
  vec_eqb a b = true <-> Forall2 (fun x y => eqb x y = true) a b.
Proof.
  revert b. induction a as [|x a IH]; intros [|y b]; simpl; split; intro H; try discriminate; try constructor;
    try solve [inversion H].
  - apply andb_prop in H. tauto.
  - apply andb_prop in H. apply IH. tauto.
  - inversion H; subst. rewrite H3. simpl. apply IH. assumption.
Qed.

(** [==] holds iff dimensions agree and all entries are [==]. *)
Lemma meqb_spec A B m n f m' n' g :
  is_mat A m n f -> is_mat B m' n' g ->
  (meqb A B = true <-> m = m' /\ n = n' /\ forall i j, i < m -> j < n -> eqb (f i j) (g i j) = true).
Proof.
  intros HA HB. destruct (is_mat_dim _ _ _ _ HA) as [Ra Ca]. destruct (is_mat_dim _ _ _ _ HB) as [Rb Cb].
  unfold meqb. rewrite Ra, Ca, Rb, Cb.
  destruct (Nat.eqb_spec m m') as [Em|Em]; cbn [andb].
  2: { split; [discriminate|]. intros (? & _). contradiction. }
  destruct (Nat.eqb_spec n n') as [En|En].
  2: { split; [discriminate|]. intros (_ & ? & _). contradiction. }
  rewrite <- Em, <- En in *. clear Em En m' n'. rewrite vec_eqb_iff.
  pose proof (is_mat_len _ _ _ _ HA) as La. pose proof (is_mat_len _ _ _ _ HB) as Lb.
  split.
  - intros HF. split; [reflexivity|]. split; [reflexivity|]. intros i j Hi Hj.
    pose proof (is_mat_vget _ _ _ _ _ _ HA Hi Hj) as Ea. pose proof (is_mat_vget _ _ _ _ _ _ HB Hi Hj) as Eb.
    unfold vget in Ea, Eb.
    destruct (nth_error (data A) (j * m + i)) eqn:Na; [|discriminate].
    destruct (nth_error (data B) (j * m + i)) eqn:Nb; [|discriminate].
    injection Ea as <-. injection Eb as <-.
    clear -HF Na Nb. revert Na Nb. generalize (j * m + i) as k. induction HF; intros [|k] Na Nb; simpl in *; try discriminate.
    + congruence.
    + eauto.
  - intros (_ & _ & H).
    assert (Hk : forall k x y, nth_error (data A) k = Some x -> nth_error (data B) k = Some y -> eqb x y = true).
    { intros k x y Nx Ny. assert (Hk : k < m * n) by (rewrite <- La; apply nth_error_Some; congruence).
      destruct (idx_divmod m n k Hk) as (K1 & K2 & K3).
      pose proof (is_mat_vget _ _ _ _ _ _ HA K1 K2) as Ea. pose proof (is_mat_vget _ _ _ _ _ _ HB K1 K2) as Eb.
      rewrite <- K3 in Ea, Eb. unfold vget in Ea, Eb. rewrite Nx in Ea. rewrite Ny in Eb.
      injection Ea as ->. injection Eb as ->. apply H; assumption. }
    assert (Hlen : length (data A) = length (data B)) by congruence.
    revert Hk Hlen. generalize (data B). generalize (data A). clear.
    induction l as [|x l IH]; intros [|y l'] Hk Hlen; simpl in *; try lia; constructor.
    + apply (Hk 0); reflexivity.
    + apply IH; [|lia]. intros k a b Na Nb. apply (Hk (S k)); assumption.
Qed.

Lemma vec_eqb_refl (a : list T) : (forall x, eqb x x = true) -> vec_eqb a a = true.
Proof. intros H. induction a as [|x a IH]; simpl; [reflexivity|]. rewrite H, IH. reflexivity. Qed.

Lemma vec_eqb_sym (a b : list T) :
  (forall x y, eqb x y = eqb y x) -> vec_eqb a b = vec_eqb b a.
Proof.
  intros H. revert b. induction a as [|x a IH]; intros [|y b]; simpl; auto. rewrite H, IH. reflexivity.
Qed.

Lemma vec_eqb_trans (a b c : list T) :
  (forall x y z, eqb x y = true -> eqb y z = true -> eqb x z = true) ->
  vec_eqb a b = true -> vec_eqb b c = true -> vec_eqb a c = true.
Proof.
  intros H. revert b c. induction a as [|x a IH]; intros [|y b] [|z c]; simpl; auto; try discriminate.
  intros H1 H2. apply andb_prop in H1, H2. destruct H1, H2. apply andb_true_intro. split; eauto.
Qed.

Lemma meqb_refl A : (forall x : T, eqb x x = true) -> meqb A A = true.
Proof. intros H. unfold meqb. rewrite !Nat.eqb_refl. apply vec_eqb_refl. assumption. Qed.

Lemma meqb_sym A B : (forall x y : T, eqb x y = eqb y x) -> meqb A B = meqb B A.
Proof.
  intros H. unfold meqb. rewrite (Nat.eqb_sym (rows A)), (Nat.eqb_sym (cols A)).
  destruct (_ && _); [|reflexivity]. apply vec_eqb_sym. assumption.
Qed.

Lemma meqb_trans A B C : (forall x y z : T, eqb x y = true -> eqb y z = true -> eqb x z = true) ->
  meqb A B = true -> meqb B C = true -> meqb A C = true.
Proof.
  intros H. unfold meqb.
  destruct (Nat.eqb_spec (rows A) (rows B)); [|discriminate].
  destruct (Nat.eqb_spec (cols A) (cols B)); [|discriminate].
  destruct (Nat.eqb_spec (rows B) (rows C)); [|discriminate].
  destruct (Nat.eqb_spec (cols B) (cols C)); [|discriminate]. cbn [andb].
  intros H1 H2. replace (rows A =? rows C) with true by (symmetry; apply Nat.eqb_eq; congruence).
  replace (cols A =? cols C) with true by (symmetry; apply Nat.eqb_eq; congruence).
  cbn [andb]. eapply vec_eqb_trans; eauto.
Qed.

Lemma meqb_leibniz A B : EqLaws O -> (meqb A B = true <-> A = B).
Proof.
  intros E. split.
  - unfold meqb. destruct (Nat.eqb_spec (rows A) (rows B)); [|discriminate].
    destruct (Nat.eqb_spec (cols A) (cols B)); [|discriminate]. cbn [andb]. intros H.
    apply vec_eqb_iff in H. destruct A as [ra ca da], B as [rb cb db]. simpl in *. subst.
    f_equal. clear -H E. induction H; [reflexivity|]. apply E in H. congruence.
  - intros <-. apply meqb_refl. intros x. apply E. reflexivity.
Qed.

End Eq.

Section Approx.
Context {T : Type} {O : Ops T} {I : InfOps T}.

Lemma mabs_diff_eq_first (A B : matrix T) a la b lb eps :
  data A = a :: la -> data B = b :: lb -> mabs_diff_eq A B eps = sabs_diff_eq a b eps.
Proof.
  intros Ha Hb. unfold mabs_diff_eq. rewrite Ha, Hb. simpl. unfold sabs_diff_ne.
  destruct (sabs_diff_eq a b eps); reflexivity.
Qed.
Lemma mabs_diff_eq_empty (A B : matrix T) eps : data A = [] \/ data B = [] -> mabs_diff_eq A B eps = true.
Proof. intros [H|H]; unfold mabs_diff_eq; rewrite H; [reflexivity|]. destruct (data A); reflexivity. Qed.
Lemma mrelative_eq_first (A B : matrix T) a la b lb eps r :
  data A = a :: la -> data B = b :: lb -> mrelative_eq A B eps r = srelative_eq a b eps r.
Proof.
  intros Ha Hb. unfold mrelative_eq. rewrite Ha, Hb. simpl. unfold srelative_ne.
  destruct (srelative_eq a b eps r); reflexivity.
Qed.
Lemma mrelative_eq_empty (A B : matrix T) eps r : data A = [] \/ data B = [] -> mrelative_eq A B eps r = true.
Proof. intros [H|H]; unfold mrelative_eq; rewrite H; [reflexivity|]. destruct (data A); reflexivity. Qed.

Lemma is_mat_first (A : matrix T) m n f : 0 < m -> 0 < n -> is_mat A m n f -> exists l, data A = f 0 0 :: l.
Proof.
  intros Hm Hn H. pose proof (is_mat_vget _ _ _ _ 0 0 H Hm Hn) as E. simpl in E.
  unfold vget in E. destruct (data A) as [|x l]; simpl in E; [discriminate|]. injection E as ->. eauto.
Qed.

Lemma mabs_diff_eq_spec (A B : matrix T) m n f p q g eps :
  0 < m -> 0 < n -> 0 < p -> 0 < q -> is_mat A m n f -> is_mat B p q g ->
  mabs_diff_eq A B eps = sabs_diff_eq (f 0 0) (g 0 0) eps.
Proof.
  intros Hm Hn Hp Hq HA HB. destruct (is_mat_first _ _ _ _ Hm Hn HA) as (la & Ea).
  destruct (is_mat_first _ _ _ _ Hp Hq HB) as (lb & Eb). eapply mabs_diff_eq_first; eauto.
Qed.

Lemma mrelative_eq_spec (A B : matrix T) m n f p q g eps r :
  0 < m -> 0 < n -> 0 < p -> 0 < q -> is_mat A m n f -> is_mat B p q g ->
  mrelative_eq A B eps r = srelative_eq (f 0 0) (g 0 0) eps r.
Proof.
  intros Hm Hn Hp Hq HA HB. destruct (is_mat_first _ _ _ _ Hm Hn HA) as (la & Ea).
  destruct (is_mat_first _ _ _ _ Hp Hq HB) as (lb & Eb). eapply mrelative_eq_first; eauto.
Qed.
End Approx.

Section Iter.
Context {T : Type} {O : Ops T}.

Lemma next_calls_spec {I} (next : nat -> outcome (option I * nat)) (n : nat) (item : nat -> I) :
  (forall k, k < n -> next k = Ret (Some (item k), S k)) ->
  (forall k, n <= k -> next k = Ret (None, k)) ->
  forall c k, next_calls next c k =
    Ret (map (fun i => if i <? n then Some (item i) else None) (seq k c)).
Proof.
  intros H1 H2.
  assert (G : forall c k k', n <= k -> n <= k' -> next_calls next c k =
    Ret (map (fun i => if i <? n then Some (item i) else None) (seq k' c))).
  { induction c as [|c IH]; intros k k' Hk Hk'; simpl; [reflexivity|].
    rewrite H2 by assumption. simpl. rewrite (IH k (S k')) by lia. simpl.
    replace (k' <? n) with false by (symmetry; apply Nat.ltb_ge; lia). reflexivity. }
  induction c as [|c IH]; intros k; simpl; [reflexivity|].
  destruct (Nat.ltb_spec k n).
  - rewrite H1 by assumption. simpl. rewrite IH. reflexivity.
  - rewrite H2 by assumption. simpl. rewrite (G c k (S k)) by lia. reflexivity.
Qed.

Lemma mrows_exist (A : matrix T) m n f : is_mat A m n f ->
  exists r : nat -> vector T, forall i, i < m -> mget_row A i = Ret (r i) /\ is_row (r i) n (fun j => f i j).
Proof.
  intros H. exists (fun i => match mget_row A i with Ret v => v | Panic => A end).
  intros i Hi. destruct (mget_row_spec A m n f i H Hi) as (v & E & Hv). rewrite E. auto.
Qed.
Lemma mcols_exist (A : matrix T) m n f : is_mat A m n f ->
  exists r : nat -> vector T, forall j, j < n -> mget_column A j = Ret (r j) /\ is_col (r j) m (fun i => f i j).
Proof.
  intros H. exists (fun i => match mget_column A i with Ret v => v | Panic => A end).
  intros i Hi. destruct (mget_column_spec A m n f i H Hi) as (v & E & Hv). rewrite E. auto.
Qed.

Lemma row_iter_spec (A : matrix T) m n f : is_mat A m n f ->
  exists r : nat -> vector T, (forall i, i < m -> is_row (r i) n (fun j => f i j)) /\
    forall c, next_calls (row_iter_next A) c 0 =
      Ret (map (fun i => if i <? m then Some (r i) else None) (seq 0 c)).
Proof.
  intros H. destruct (mrows_exist A m n f H) as (r & Hr). exists r. split.
  - intros i Hi. apply Hr. assumption.
  - intros c. pose proof (is_mat_rows _ _ _ _ H) as R. apply next_calls_spec.
    + intros k Hk. unfold row_iter_next. rewrite R. apply Nat.ltb_lt in Hk as Hk'. rewrite Hk'.
      destruct (Hr k Hk) as [-> _]. reflexivity.
    + intros k Hk. unfold row_iter_next. rewrite R.
      replace (k <? m) with false by (symmetry; apply Nat.ltb_ge; lia). reflexivity.
Qed.

Lemma col_iter_spec (A : matrix T) m n f : is_mat A m n f ->
  exists r : nat -> vector T, (forall j, j < n -> is_col (r j) m (fun i => f i j)) /\
    forall c, next_calls (column_iter_next A) c 0 =
      Ret (map (fun j => if j <? n then Some (r j) else None) (seq 0 c)).
Proof.
  intros H. destruct (mcols_exist A m n f H) as (r & Hr). exists r. split.
  - intros i Hi. apply Hr. assumption.
  - intros c. pose proof (is_mat_cols _ _ _ _ H) as R. apply next_calls_spec.
    + intros k Hk. unfold column_iter_next. rewrite R. apply Nat.ltb_lt in Hk as Hk'. rewrite Hk'.
      destruct (Hr k Hk) as [-> _]. reflexivity.
    + intros k Hk. unfold column_iter_next. rewrite R.
      replace (k <? n) with false by (symmetry; apply Nat.ltb_ge; lia). reflexivity.
Qed.

Lemma miter_spec (A : matrix T) m n f : is_mat A m n f ->
  length (miter A) = m * n /\
  forall i j, i < m -> j < n -> nth_error (miter A) (j * m + i) = Some (f i j).
Proof.
  intros H. split; [apply (is_mat_len _ _ _ _ H)|]. intros i j Hi Hj.
  pose proof (is_mat_vget _ _ _ _ _ _ H Hi Hj) as E. unfold vget in E. unfold miter.
  destruct (nth_error (data A) (j * m + i)); [congruence|discriminate].
Qed.
End Iter.

Section Arg.
Context {T : Type} {O : Ops T} (L : OrdLaws O).

Lemma ltb_asym x y : ltb x y = true -> ltb y x = false.
Proof.
  intros H. destruct (ltb y x) eqn:E; [|reflexivity].
  pose proof (ol_trans _ L _ _ _ H E) as H2. rewrite (ol_irrefl _ L) in H2. discriminate.
Qed.

(** first index of a maximum of [f] on [0..n) *)
Definition first_max (n : nat) (f : nat -> T) (k : nat) : Prop :=
  k < n /\ (forall i, i < n -> ltb (f k) (f i) = false) /\ (forall i, i < k -> ltb (f i) (f k) = true).
Definition first_min (n : nat) (f : nat -> T) (k : nat) : Prop :=
  k < n /\ (forall i, i < n -> ltb (f i) (f k) = false) /\ (forall i, i < k -> ltb (f k) (f i) = true).

Lemma argmax_gen (v : vector T) n f :
  0 < n -> (forall i, i < n -> vvget v i = Ret (f i)) -> Nat.max (rows v) (cols v) = n ->
  exists k, vargmax v = Ret k /\ first_max n f k.
Proof.
  intros Hn Hg Hl. unfold vargmax. rewrite Hg by assumption. cbn [bind]. rewrite Hl.
  replace (n =? 0) with false by (symmetry; apply Nat.eqb_neq; lia). cbn [negb rassert bind].
  match goal with |- context [for_loop 0 n ?body _] => set (bd := body) end.
  destruct (for_loop_ind (fun idx st => snd st = f (fst st) /\ fst st < n /\
     (forall i, i < idx -> ltb (f (fst st)) (f i) = false) /\
     (forall i, i < fst st -> ltb (f i) (f (fst st)) = true)) bd 0 n (0, f 0)) as ((k & e) & E & H1 & H2 & H3 & H4).
  - lia.
  - simpl. repeat split; auto; intros; lia.
  - intros idx (k & e) Hi (H1 & H2 & H3 & H4). simpl in *. subst e. unfold bd. rewrite Hg by lia. cbn [bind snd].
    destruct (ltb (f k) (f idx)) eqn:El.
    + eexists; split; [reflexivity|]. simpl. split; [reflexivity|]. split; [lia|].
      assert (Hall : forall i, i < idx -> ltb (f i) (f idx) = true).
      { intros i Hi'. destruct (ol_weak _ L (f k) (f i) (f idx) El) as [C|C]; [|assumption].
        rewrite H3 in C by assumption. discriminate. }
      split; [|assumption]. intros i Hi'. destruct (Nat.eq_dec i idx).
      * subst. apply (ol_irrefl _ L).
      * apply ltb_asym. apply Hall. lia.
    + eexists; split; [reflexivity|]. simpl. split; [reflexivity|]. split; [assumption|]. split; [|assumption].
      intros i Hi'. destruct (Nat.eq_dec i idx); [subst; assumption|]. apply H3. lia.
  - rewrite E. cbn [bind]. exists k. simpl in *. split; [reflexivity|]. repeat split; auto.
Qed.

Lemma argmin_gen (v : vector T) n f :
  0 < n -> (forall i, i < n -> vvget v i = Ret (f i)) -> Nat.max (rows v) (cols v) = n ->
  exists k, vargmin v = Ret k /\ first_min n f k.
Proof.
  intros Hn Hg Hl. unfold vargmin. rewrite Hg by assumption. cbn [bind]. rewrite Hl.
  replace (n =? 0) with false by (symmetry; apply Nat.eqb_neq; lia). cbn [negb rassert bind].
  match goal with |- context [for_loop 0 n ?body _] => set (bd := body) end.
  destruct (for_loop_ind (fun idx st => snd st = f (fst st) /\ fst st < n /\
     (forall i, i < idx -> ltb (f i) (f (fst st)) = false) /\
     (forall i, i < fst st -> ltb (f (fst st)) (f i) = true)) bd 0 n (0, f 0)) as ((k & e) & E & H1 & H2 & H3 & H4).
  - lia.
  - simpl. repeat split; auto; intros; lia.
  - intros idx (k & e) Hi (H1 & H2 & H3 & H4). simpl in *. subst e. unfold bd. rewrite Hg by lia. cbn [bind snd].
    destruct (ltb (f idx) (f k)) eqn:El.
    + eexists; split; [reflexivity|]. simpl. split; [reflexivity|]. split; [lia|].
      assert (Hall : forall i, i < idx -> ltb (f idx) (f i) = true).
      { intros i Hi'. destruct (ol_weak _ L (f idx) (f i) (f k) El) as [C|C]; [assumption|].
        rewrite H3 in C by assumption. discriminate. }
      split; [|assumption]. intros i Hi'. destruct (Nat.eq_dec i idx).
      * subst. apply (ol_irrefl _ L).
      * apply ltb_asym. apply Hall. lia.
    + eexists; split; [reflexivity|]. simpl. split; [reflexivity|]. split; [assumption|]. split; [|assumption].
      intros i Hi'. destruct (Nat.eq_dec i idx); [subst; assumption|]. apply H3. lia.
  - rewrite E. cbn [bind]. exists k. simpl in *. split; [reflexivity|]. repeat split; auto.
Qed.

Lemma max_dim_col (v : vector T) m f : 0 < m -> is_col v m f -> Nat.max (rows v) (cols v) = m.
Proof. intros Hm H. destruct (is_mat_dim _ _ _ _ H). lia. Qed.
Lemma max_dim_row (v : vector T) m f : 0 < m -> is_row v m f -> Nat.max (rows v) (cols v) = m.
Proof. intros Hm H. destruct (is_mat_dim _ _ _ _ H). lia. Qed.
End Arg.
