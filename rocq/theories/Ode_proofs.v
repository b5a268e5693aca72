(** Proofs about single Runge-Kutta steps. *)
From Coq Require Import Arith Lia List Bool ZArith Reals Lra.
From Verif Require Import Outcome Scalar Matrix_model Vector_model Matrix_spec Matrix_proofs Vector_proofs Sums Ode_model Ode_spec.
Import ListNotations.

Section RK.
Context {T : Type} {O : Ops T}.
Local Open Scope sc_scope.

Lemma vadd_col v w m f g : is_col v m f -> is_col w m g ->
  exists u, vadd v w = Ret u /\ is_col u m (fun i => f i + g i).
Proof. intros H H'. exact (madd_spec v w m 1 _ _ H H'). Qed.
Lemma vsub_col v w m f g : is_col v m f -> is_col w m g ->
  exists u, vsub v w = Ret u /\ is_col u m (fun i => f i - g i).
Proof. intros H H'. exact (msub_spec v w m 1 _ _ H H'). Qed.
Lemma vmul_scalar_col v m f c : is_col v m f -> is_col (vmul_scalar v c) m (fun i => f i * c).
Proof. intros H. exact (mapply_spec (fun x => x * c) v m 1 _ H). Qed.

(** The list [k] holds columns with components [K 0], [K 1], ... *)
Definition cols_of (k : list (vector T)) (m : nat) (K : nat -> nat -> T) : Prop :=
  forall l, (l < length k)%nat -> is_col (nth l k (vzero 0)) m (K l).

Lemma cols_of_nil m K : cols_of [] m K. Proof. intros l H. simpl in H. lia. Qed.

Lemma wsum_gen ws k m K : forall acc g d,
  (length ws <= length k)%nat -> is_col acc m g ->
  (forall l, (l < length k)%nat -> is_col (nth l k (vzero 0)) m (K (d + l)%nat)) ->
  exists r, fold_left (fun acc wk => let! s := acc in vadd s (vmul_scalar (snd wk) (fst wk)))
              (combine ws k) (Ret acc) = Ret r /\
    is_col r m (fun i => fold_left (fun s l => s + K (d + l)%nat i * nth l ws 0) (seq 0 (length ws)) (g i)).
Proof.
  revert k. induction ws as [|w ws IH]; intros k acc g d Hl Ha Hk; [|destruct k as [|v k]; simpl in Hl; [lia|]].
  - exists acc. split; [reflexivity|exact Ha].
  - cbn [combine fold_left fst snd].
    pose proof (Hk 0%nat ltac:(simpl; lia)) as H0. cbn [nth] in H0.
    destruct (vadd_col acc (vmul_scalar v w) m _ _ Ha (vmul_scalar_col _ _ _ w H0)) as (u & Eu & Hu).
    change (let! s := Ret acc in vadd s (vmul_scalar v w)) with (vadd acc (vmul_scalar v w)). rewrite Eu.
    destruct (IH k u _ (S d) ltac:(lia) Hu) as (r & Er & Hr).
    { intros l Hk'. specialize (Hk (S l) ltac:(simpl; lia)). cbn [nth] in Hk.
      replace (S d + l)%nat with (d + S l)%nat by lia. exact Hk. }
    exists r. split; [exact Er|]. eapply col_ext; [|exact Hr]. intros i Hi. cbn beta.
    cbn [length seq fold_left nth]. rewrite Nat.add_0_r.
    rewrite <- seq_shift. generalize (g i + K d i * w). generalize (seq 0 (length ws)).
    induction l as [|a l IHl]; intro e; [reflexivity|]. cbn [map fold_left nth].
    replace (S d + a)%nat with (d + S a)%nat by lia. apply IHl.
Qed.

Lemma fold_seq_sumn n (f : nat -> T) : fold_left (fun s l => s + f l) (seq 0 n) 0 = sumn n f.
Proof.
  induction n as [|n IH]; [reflexivity|]. rewrite seq_S, fold_left_app, IH. reflexivity.
Qed.

Lemma wsum_spec ws k m K : (length ws <= length k)%nat -> cols_of k m K ->
  exists r, wsum m ws k = Ret r /\ is_col r m (fun i => sumn (length ws) (fun l => K l i * nth l ws 0)).
Proof.
  intros Hl Hk. destruct (wsum_gen ws k m K (vzero m) _ 0 Hl (vzero_spec m) Hk) as (r & Er & Hr).
  exists r. split; [exact Er|]. eapply col_ext; [|exact Hr]. intros i Hi. cbn beta.
  apply (fold_seq_sumn (length ws) (fun l => K l i * nth l ws 0)).
Qed.

(** More stages than weights or fewer: [zip] stops at the shorter one. *)
Lemma combine_trunc {A B} (l : list A) (r : list B) : combine l r = combine (firstn (length r) l) r.
Proof.
  revert r. induction l as [|a l IH]; intros [|b r]; try reflexivity. simpl. rewrite IH. reflexivity.
Qed.

Lemma tri j : (S j * j / 2 = j * (j - 1) / 2 + j)%nat.
Proof.
  destruct j as [|j]; [reflexivity|]. replace (S j - 1)%nat with j by lia.
  replace (S (S j) * S j)%nat with (S j * j + S j * 2)%nat by lia.
  rewrite Nat.div_add by lia. lia.
Qed.
Lemma tri_mono j s : (j <= s)%nat -> (j * (j - 1) / 2 <= s * (s - 1) / 2)%nat.
Proof. intros H. apply Nat.div_le_mono; [lia|]. apply Nat.mul_le_mono; lia. Qed.

Lemma nth_skipn {A} (l : list A) n i d : nth i (skipn n l) d = nth (n + i) l d.
Proof. revert l. induction n as [|n IH]; intros [|a l]; simpl; auto. destruct i; reflexivity. Qed.
Lemma nth_firstn_lt {A} (l : list A) n i d : (i < n)%nat -> nth i (firstn n l) d = nth i l d.
Proof.
  revert l i. induction n as [|n IH]; intros l i H; [lia|]. destruct l; [destruct i; reflexivity|].
  destruct i; [reflexivity|]. simpl. apply IH. lia.
Qed.

Lemma sub_slice_ok {A} (l : list A) ib j d : (ib + j <= length l)%nat ->
  exists r, sub_slice l ib (ib + j) = Ret r /\ length r = j /\ forall i, (i < j)%nat -> nth i r d = nth (ib + i) l d.
Proof.
  intros H. unfold sub_slice. replace (ib <=? ib + j)%nat with true by (symmetry; apply Nat.leb_le; lia).
  replace (ib + j <=? length l)%nat with true by (symmetry; apply Nat.leb_le; lia).
  cbn [andb rassert bind]. replace (ib + j - ib)%nat with j by lia. eexists. split; [reflexivity|]. split.
  - rewrite firstn_length, skipn_length. lia.
  - intros i Hi. rewrite nth_firstn_lt by assumption. apply nth_skipn.
Qed.

Definition updK (K : nat -> nat -> T) (j : nat) (k : nat -> T) : nat -> nat -> T :=
  fun l => if (l =? j)%nat then k else K l.

Lemma stages_spec a c s f m t x g h :
  (1 <= s)%nat -> (s * (s - 1) / 2 <= length a)%nat -> (s - 1 <= length c)%nat ->
  is_col x m g -> rhs_total f m ->
  exists k K, stages a c s f t x h = Ret k /\ length k = s /\ cols_of k m K /\
    rk_stages a c s f m t x g h K.
Proof.
  intros Hs Ha Hc Hx Hf. unfold stages.
  destruct (Hf t x g Hx) as (k0 & K0 & E0 & H0). rewrite E0. cbn [bind].
  rewrite (is_mat_rows _ _ _ _ Hx).
  edestruct (for_loop_ind (fun j k => length k = j /\ exists K, cols_of k m K /\
               rk_stages a c j f m t x g h K)) as (k & Ek & Hk); [exact Hs| | |].
  3: { rewrite Ek. destruct Hk as (L & K & HK & HR). exists k, K. auto. }
  - split; [reflexivity|]. exists (fun _ => K0). split.
    + intros l Hl. simpl in Hl. replace l with 0%nat by lia. exact H0.
    + split; [exists k0; auto|]. intros; lia.
  - intros j k Hj (L & K & HK & (HR0 & HR)). cbn beta zeta.
    assert (Hib : ((j - 1) * j / 2 = j * (j - 1) / 2)%nat) by (rewrite Nat.mul_comm; reflexivity).
    rewrite Hib.
    assert (Hfit : (j * (j - 1) / 2 + j <= length a)%nat).
    { rewrite <- tri. pose proof (tri_mono (S j) s ltac:(lia)) as Ht.
      replace (S j - 1)%nat with j in Ht by lia. lia. }
    destruct (sub_slice_ok a (j * (j - 1) / 2) j 0 Hfit) as (aj & Eaj & Laj & Naj). rewrite Eaj. cbn [bind].
    destruct (wsum_spec aj k m K ltac:(lia) HK) as (sm & Es & Hsm). rewrite Es. cbn [bind].
    rewrite (vget_ok c (j - 1) 0) by lia. cbn [bind].
    destruct (vadd_col x (vmul_scalar sm h) m _ _ Hx (vmul_scalar_col _ _ _ h Hsm)) as (xj & Exj & Hxj).
    rewrite Exj. cbn [bind].
    destruct (Hf (t + nth (j - 1) c 0 * h) xj _ Hxj) as (kj & Kj & Ekj & Hkj). rewrite Ekj. cbn [bind].
    eexists. split; [reflexivity|]. split; [rewrite app_length; simpl; lia|].
    exists (updK K j Kj). split.
    + intros l Hl. rewrite app_length in Hl. simpl in Hl. unfold updK.
      destruct (Nat.eqb_spec l j) as [->|Hne].
      * rewrite app_nth2 by lia. rewrite L, Nat.sub_diag. exact Hkj.
      * rewrite app_nth1 by lia. apply HK. lia.
    + split.
      * destruct HR0 as (k0' & E0' & H0'). exists k0'. split; [exact E0'|]. unfold updK.
        destruct (Nat.eqb_spec 0 j); [lia|exact H0'].
      * intros j' Hj'. destruct (Nat.eq_dec j' j) as [->|Hne].
        -- exists xj, kj. split.
           { eapply col_ext; [|exact Hxj]. intros i Hi. cbn beta. do 2 f_equal. rewrite Laj.
             apply sumn_ext. intros l Hl. unfold updK, a_of. destruct (Nat.eqb_spec l j); [lia|].
             rewrite Naj by assumption. reflexivity. }
           split.
           { unfold c_of. destruct j; [lia|]. replace (S j - 1)%nat with j in Ekj by lia. exact Ekj. }
           { unfold updK. rewrite Nat.eqb_refl. exact Hkj. }
        -- destruct (HR j' ltac:(lia)) as (xj' & kj' & H1 & H2 & H3). exists xj', kj'. split.
           { eapply col_ext; [|exact H1]. intros i Hi. cbn beta. do 2 f_equal. apply sumn_ext.
             intros l Hl. unfold updK. destruct (Nat.eqb_spec l j); [lia|reflexivity]. }
           split; [exact H2|]. unfold updK. destruct (Nat.eqb_spec j' j); [lia|exact H3].
Qed.

Lemma finish_spec x g m b k K h s : is_col x m g -> (length b <= s)%nat -> length k = s -> cols_of k m K ->
  exists sm r, wsum (rows x) b k = Ret sm /\ vadd x (vmul_scalar sm h) = Ret r /\
    is_col r m (fun i => g i + sumn (length b) (fun j => K j i * b_of b j) * h).
Proof.
  intros Hx Hb Hl Hk. rewrite (is_mat_rows _ _ _ _ Hx).
  destruct (wsum_spec b k m K ltac:(lia) Hk) as (sm & Es & Hsm).
  destruct (vadd_col x (vmul_scalar sm h) m _ _ Hx (vmul_scalar_col _ _ _ h Hsm)) as (r & Er & Hr).
  exists sm, r. auto.
Qed.

Lemma do_step_spec (B : tableau T) f m t x g h :
  (1 <= length (tb B))%nat -> tableau_ok (ta B) (tb B) (tc B) -> is_col x m g -> rhs_total f m ->
  exists r K, do_step B f t x h = Ret r /\ rk_stages (ta B) (tc B) (length (tb B)) f m t x g h K /\
    is_col r m (fun i => g i + sumn (length (tb B)) (fun j => K j i * b_of (tb B) j) * h).
Proof.
  intros Hs (Ha & Hc) Hx Hf.
  destruct (stages_spec (ta B) (tc B) (length (tb B)) f m t x g h Hs Ha Hc Hx Hf) as (k & K & Ek & Lk & HK & HR).
  destruct (finish_spec x g m (tb B) k K h _ Hx (le_n _) Lk HK) as (sm & r & E1 & E2 & Hr).
  exists r, K. unfold do_step. rewrite Ek. cbn [bind]. rewrite E1. cbn [bind]. auto.
Qed.

Lemma do_step2_spec (B : tableau2 T) f m t x g h :
  (1 <= length (tb2 B))%nat -> tableau_ok (ta2 B) (tb2 B) (tc2 B) -> (length (tbs2 B) <= length (tb2 B))%nat ->
  is_col x m g -> rhs_total f m ->
  exists r rs K, do_step2 B f t x h = Ret (r, rs) /\ rk_stages (ta2 B) (tc2 B) (length (tb2 B)) f m t x g h K /\
    is_col r m (fun i => g i + sumn (length (tb2 B)) (fun j => K j i * b_of (tb2 B) j) * h) /\
    is_col rs m (fun i => g i + sumn (length (tbs2 B)) (fun j => K j i * b_of (tbs2 B) j) * h).
Proof.
  intros Hs (Ha & Hc) Hbs Hx Hf.
  destruct (stages_spec (ta2 B) (tc2 B) (length (tb2 B)) f m t x g h Hs Ha Hc Hx Hf) as (k & K & Ek & Lk & HK & HR).
  destruct (finish_spec x g m (tb2 B) k K h _ Hx (le_n _) Lk HK) as (sm & r & E1 & E2 & Hr).
  destruct (finish_spec x g m (tbs2 B) k K h _ Hx Hbs Lk HK) as (sm' & r' & E1' & E2' & Hr').
  exists r, r', K. unfold do_step2. rewrite Ek. cbn [bind]. rewrite E1. cbn [bind]. rewrite E2. cbn [bind].
  rewrite E1'. cbn [bind]. rewrite E2'. cbn [bind]. auto.
Qed.

(** A step that returns needs a complete tableau. *)
Lemma stages_ret_ok a c s f t x h k : stages a c s f t x h = Ret k -> (1 <= s)%nat ->
  (s * (s - 1) / 2 <= length a)%nat /\ (s - 1 <= length c)%nat.
Proof.
  intros H Hs. unfold stages in H. apply bind_ret in H as (k0 & _ & H).
  refine (for_loop_inv (fun j _ => (j * (j - 1) / 2 <= length a)%nat /\ (j - 1 <= length c)%nat) _ _ _ _ _ H Hs _ _).
  - split; simpl; lia.
  - clear. intros j k k' Hj (Ha & Hc) H. cbn beta zeta in H.
    apply bind_ret in H as (aj & E & H). apply bind_ret in H as (sm & _ & H). apply bind_ret in H as (cj & Ec & _).
    split.
    + unfold sub_slice in E. apply bind_ret in E as (u & E & _). apply rassert_ret in E.
      apply andb_true_iff in E as (_ & E). apply Nat.leb_le in E.
      replace (S j - 1)%nat with j by lia. rewrite tri. rewrite (Nat.mul_comm (j - 1) j) in E. exact E.
    + unfold vget in Ec. destruct (nth_error c (j - 1)) eqn:En; [|discriminate].
      assert (j - 1 < length c)%nat by (apply nth_error_Some; congruence). lia.
Qed.

End RK.

Section Const.
Context {T : Type} {O : Ops T} (L : RingLaws O).
Local Open Scope sc_scope.
Add Ring TRode : (rl_ring O L).

Lemma rhs_total_const (kv : vector T) m k : is_col kv m k -> rhs_total (fun (_ : T) _ => Ret kv) m.
Proof. intros H t x g _. exists kv, k. auto. Qed.

Lemma rk_stages_const (a c : list T) s kv m k t x g h K : is_col kv m k ->
  rk_stages a c s (fun _ _ => Ret kv) m t x g h K -> forall j i, (j < s)%nat -> (i < m)%nat -> K j i = k i.
Proof.
  intros Hk ((k0 & E0 & H0) & H) j i Hj Hi.
  assert (Hkj : is_col kv m (K j)).
  { destruct j as [|j]; [congruence|]. destruct (H (S j) ltac:(lia)) as (xj & kj & _ & E & Hj'). congruence. }
  exact (is_mat_entry_unique _ _ _ _ _ i 0%nat Hkj Hk Hi ltac:(lia)).
Qed.

Lemma const_step (B : tableau T) : (1 <= length (tb B))%nat -> tableau_ok (ta B) (tb B) (tc B) ->
  (sumn (length (tb B)) (b_of (tb B)) = 1 <->
   forall m kv k t x g h, is_col kv m k -> is_col x m g ->
     exists r, do_step B (fun _ _ => Ret kv) t x h = Ret r /\ is_col r m (fun i => g i + k i * h)).
Proof.
  intros Hs Hok. split.
  - intros Hb m kv k t x g h Hk Hx.
    destruct (do_step_spec B _ m t x g h Hs Hok Hx (rhs_total_const kv m k Hk)) as (r & K & E & HR & Hr).
    exists r. split; [exact E|]. eapply col_ext; [|exact Hr]. intros i Hi. cbn beta.
    rewrite (sumn_ext _ _ (fun j => k i * b_of (tb B) j)).
    + rewrite (sumn_mul_l L), Hb. ring.
    + intros j Hj. rewrite (rk_stages_const _ _ _ _ _ _ _ _ _ _ _ Hk HR j i Hj Hi). reflexivity.
  - intros H.
    destruct (vnew_column_spec 1 [1] 1 eq_refl) as (kv & _ & Hk).
    destruct (H 1%nat kv _ 0 _ _ 1 Hk (vzero_spec 1)) as (r & E & Hr).
    destruct (do_step_spec B _ 1%nat 0 _ _ 1 Hs Hok (vzero_spec 1) (rhs_total_const kv _ _ Hk)) as (r' & K & E' & HR & Hr').
    assert (r' = r) by congruence. subst r'.
    pose proof (is_mat_entry_unique _ _ _ _ _ 0%nat 0%nat Hr Hr' ltac:(lia) ltac:(lia)) as Heq. cbn beta in Heq.
    cbn [nth] in Heq.
    rewrite (sumn_ext _ (fun j => K j 0%nat * b_of (tb B) j) (b_of (tb B))) in Heq.
    + replace (sumn (length (tb B)) (b_of (tb B))) with (0 + sumn (length (tb B)) (b_of (tb B)) * 1) by ring.
      rewrite <- Heq. ring.
    + intros j Hj. rewrite (rk_stages_const _ _ _ _ _ _ _ _ _ _ _ Hk HR j 0%nat Hj ltac:(lia)). cbn [nth]. ring.
Qed.
End Const.
