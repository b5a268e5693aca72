(** Matrix-level consequences used by the property files. *)
From Coq Require Import Arith List Bool Lia Ring_theory Ring Permutation FinFun.
From Verif Require Import Outcome Scalar Matrix_model Transpose_model Vector_model Approx_model Matrix_spec
  Matrix_proofs Transpose_proofs Vector_proofs Sums Basics_proofs.
Import ListNotations.
Local Open Scope nat_scope.

Section Structural.
Context {T : Type}.
Implicit Types A B C : matrix T.

Lemma new_ok m n (d : list T) : length d = m * n ->
  exists A, mnew m n d = Ret A /\ dim A = (m, n) /\ wf A /\
    forall i j, i < m -> j < n ->
      exists x, nth_error d (j * m + i) = Some x /\ mget A i j = Ret x.
Proof.
  intros H. unfold mnew. rewrite H, Nat.eqb_refl. cbn [rassert bind].
  eexists; split; [reflexivity|]. split; [reflexivity|]. split; [exact H|].
  intros i j Hi Hj. rewrite mget_in by assumption. cbn [rows data].
  assert (Hk : j * m + i < length d) by (rewrite H; apply idx_bound; assumption).
  unfold vget. destruct (nth_error d (j * m + i)) eqn:E.
  - eauto.
  - apply nth_error_None in E. lia.
Qed.

Lemma new_bad m n (d : list T) : length d <> m * n -> mnew m n d = Panic.
Proof.
  intros H. unfold mnew. replace (m * n =? length d) with false by (symmetry; apply Nat.eqb_neq; lia). reflexivity.
Qed.

Lemma get_iff A i j : wf A -> ((exists x, mget A i j = Ret x) <-> i < rows A /\ j < cols A).
Proof.
  intros Hw. split.
  - intros (x & E). eapply mget_ret_range; eauto.
  - intros [Hi Hj]. rewrite mget_in by assumption. unfold vget.
    destruct (nth_error (data A) (j * rows A + i)) eqn:E; [eauto|].
    apply nth_error_None in E. pose proof (idx_bound _ _ _ _ Hi Hj). rewrite Hw in E. lia.
Qed.

Lemma set_ok A i j v : wf A -> i < rows A -> j < cols A ->
  exists A', mset A i j v = Ret A' /\ wf A' /\ dim A' = dim A /\ mget A' i j = Ret v /\
    forall a b, (a, b) <> (i, j) -> mget A' a b = mget A a b.
Proof.
  intros Hw Hi Hj.
  destruct (mset_spec A (rows A) (cols A) _ i j v (wf_is_mat v A Hw) Hi Hj) as (A' & E & H).
  exists A'. split; [assumption|]. split; [eapply is_mat_wf; eauto|].
  destruct (is_mat_dim _ _ _ _ H) as [R C].
  split; [unfold dim; congruence|]. split.
  - rewrite (is_mat_get _ _ _ _ i j H Hi Hj). unfold fupd. rewrite !Nat.eqb_refl. reflexivity.
  - intros a b Hne.
    destruct (Nat.lt_ge_cases a (rows A)) as [Ha|Ha].
    2: { rewrite !mget_panic by (rewrite ?R; auto). reflexivity. }
    destruct (Nat.lt_ge_cases b (cols A)) as [Hb|Hb].
    2: { rewrite !mget_panic by (rewrite ?C; auto). reflexivity. }
    rewrite (is_mat_get _ _ _ _ a b H Ha Hb).
    rewrite (is_mat_get _ _ _ _ a b (wf_is_mat v A Hw) Ha Hb). unfold fupd.
    destruct (Nat.eqb_spec a i); destruct (Nat.eqb_spec b j); cbn [andb]; try reflexivity. congruence.
Qed.

Lemma set_bad A i j v : rows A <= i \/ cols A <= j -> mset A i j v = Panic.
Proof. apply mset_panic. Qed.

(** The [matrix!] literal. *)
Lemma macro_ok (a : list (list T)) (d : T) n :
  a <> [] -> (forall r, In r a -> length r = n) ->
  exists A, matrix_macro a = Ret A /\ is_mat A (length a) n (fun i j => nth j (nth i a []) d).
Proof.
  intros Hne Hr. unfold matrix_macro.
  destruct a as [|r0 a']; [congruence|]. set (a := r0 :: a') in *.
  assert (E0 : vget a 0 = Ret r0) by reflexivity. rewrite E0. cbn [bind].
  assert (L0 : length r0 = n) by (apply Hr; left; reflexivity). rewrite L0.
  set (m := length a).
  set (f := fun i j => nth j (nth i a []) d).
  set (good := fun (k : nat) (l : list T) => length l = k /\
       forall i j, i < m -> j * m + i < k -> vget l (j * m + i) = Ret (f i j)).
  assert (Hm : 0 < m) by (unfold m, a; simpl; lia).
  assert (Hin : forall i j l, i < m -> j < n -> good (j * m + i) l ->
     exists l', (let! r := vget a i in let! x := vget r j in Ret (l ++ [x])) = Ret l' /\ good (S (j * m + i)) l').
  { intros i j l Hi Hj [Hlen Hl].
    rewrite (vget_ok a i []) by assumption. cbn [bind].
    assert (Hlr : length (nth i a []) = n) by (apply Hr; apply nth_In; assumption).
    rewrite (vget_ok (nth i a []) j d) by lia. cbn [bind].
    eexists; split; [reflexivity|]. split; [rewrite app_length; simpl; lia|].
    intros i2 j2 Hi2 Hk.
    destruct (Nat.eq_dec (j2 * m + i2) (j * m + i)) as [E|E].
    - destruct (idx_inj _ _ _ _ _ Hi2 Hi E) as [-> ->].
      unfold vget. rewrite nth_error_app2 by lia. rewrite Hlen, Nat.sub_diag. reflexivity.
    - unfold vget. rewrite nth_error_app1 by lia. apply Hl; [assumption|lia]. }
  destruct (for_loop_ind (fun j l => good (j * m) l)
    (fun j d => for_loop 0 m (fun i d => let! r := vget a i in let! x := vget r j in Ret (d ++ [x])) d)
    0 n []) as (l & E & Hl1 & Hl2).
  - lia.
  - split; [reflexivity|]. intros i j Hi Hk. simpl in Hk. lia.
  - intros j l Hj Hl.
    destruct (for_loop_ind (fun i l => good (j * m + i) l)
      (fun i d => let! r := vget a i in let! x := vget r j in Ret (d ++ [x])) 0 m l) as (l' & E' & Hl').
    + lia.
    + rewrite Nat.add_0_r. assumption.
    + intros i l' Hi Hl'. destruct (Hin i j l') as (l2 & E2 & H2); [lia|lia|assumption|].
      exists l2. split; [assumption|]. rewrite Nat.add_succ_r. assumption.
    + exists l'. split; [assumption|]. replace (S j * m) with (j * m + m) by lia. assumption.
  - rewrite E. cbn [bind]. unfold mnew.
    replace (m * n =? length l) with true by (symmetry; apply Nat.eqb_eq; lia). cbn [rassert bind].
    eexists; split; [reflexivity|]. apply is_mat_intro; cbn [rows cols data]; auto; [lia|].
    intros i j Hi Hj. apply Hl2; [assumption|]. pose proof (idx_bound _ _ _ _ Hi Hj). lia.
Qed.

(** Transposition on storage. *)
Lemma transpose_storage A :
  wf A -> 0 < rows A -> 0 < cols A ->
  exists B, mtranspose A = Ret B /\ dim B = (cols A, rows A) /\ wf B /\
    forall i j, i < rows A -> j < cols A ->
      nth_error (data B) (j * rows A + i) = nth_error (data A) (i * cols A + j).
Proof.
  intros Hw Hm Hn.
  destruct (data A) as [|x0 l0] eqn:Ed.
  { unfold wf in Hw. rewrite Ed in Hw. simpl in Hw. nia. }
  pose proof (wf_is_mat x0 A Hw) as HA.
  destruct (mtranspose_perm A _ _ _ Hm Hn HA) as (B & E & D & L & H).
  exists B. split; [assumption|]. split; [assumption|].
  assert (Hr : rows B = cols A) by (unfold dim in D; congruence).
  assert (Hc : cols B = rows A) by (unfold dim in D; congruence).
  split; [unfold wf; rewrite L, Hr, Hc; reflexivity|].
  intros i j Hi Hj. specialize (H i j Hi Hj).
  assert (Hk : j + i * cols A < rows A * cols A) by nia.
  destruct (idx_divmod _ _ _ Hk) as (K1 & K2 & K3).
  rewrite <- (is_mat_vget _ _ _ _ _ _ HA K1 K2) in H. rewrite <- K3 in H.
  rewrite <- Ed. replace (i * cols A + j) with (j + i * cols A) by lia.
  unfold vget in H.
  destruct (nth_error (data B) (j * rows A + i)) eqn:E1; destruct (nth_error (data A) (j + i * cols A)) eqn:E2;
    congruence || reflexivity.
Qed.

Lemma transpose_permutes A B :
  wf A -> 0 < rows A -> 0 < cols A -> mtranspose A = Ret B -> Permutation (data A) (data B).
Proof.
  intros Hw Hm Hn E. destruct (transpose_storage A Hw Hm Hn) as (B' & E' & D & Hwb & H).
  rewrite E in E'. injection E' as <-.
  assert (Hr : rows B = cols A) by (unfold dim in D; congruence).
  assert (Hc : cols B = rows A) by (unfold dim in D; congruence).
  apply Permutation_nth_error. unfold wf in *. split.
  { rewrite Hw, Hwb, Hr, Hc. lia. }
  set (m := rows A) in *. set (n := cols A) in *.
  set (p := fun k => if k <? m * n then (k mod m) * n + k / m else k).
  exists p. split.
  - intros x y Exy. unfold p in Exy.
    destruct (Nat.ltb_spec x (m * n)); destruct (Nat.ltb_spec y (m * n)); auto.
    + destruct (idx_divmod m n x) as (X1 & X2 & X3); [lia|]. destruct (idx_divmod m n y) as (Y1 & Y2 & Y3); [lia|].
      destruct (idx_inj n (x / m) (x mod m) (y / m) (y mod m)) as [I1 I2]; auto. congruence.
    + destruct (idx_divmod m n x) as (X1 & X2 & X3); [lia|].
      pose proof (idx_bound n m _ _ X2 X1). lia.
    + destruct (idx_divmod m n y) as (Y1 & Y2 & Y3); [lia|].
      pose proof (idx_bound n m _ _ Y2 Y1). lia.
  - intros k. unfold p. destruct (Nat.ltb_spec k (m * n)) as [Hk|Hk].
    + destruct (idx_divmod m n k) as (X1 & X2 & X3); [lia|].
      rewrite <- H by assumption. rewrite <- X3. reflexivity.
    + transitivity (@None T); [|symmetry]; apply nth_error_None; lia.
Qed.

Lemma transpose_involutive A :
  wf A -> 0 < rows A -> 0 < cols A -> exists B, mtranspose A = Ret B /\ mtranspose B = Ret A.
Proof.
  intros Hw Hm Hn. destruct (data A) as [|x0 l0] eqn:Ed.
  { unfold wf in Hw. rewrite Ed in Hw. simpl in Hw. nia. }
  exact (mtranspose_twice A _ _ _ Hm Hn (wf_is_mat x0 A Hw)).
Qed.

Lemma transpose_ok A m n f : 0 < m -> 0 < n -> m = n \/ m = 1 \/ n = 1 -> is_mat A m n f ->
  exists B, mtranspose A = Ret B /\ is_mat B n m (fun i j => f j i).
Proof. intros. eapply mtranspose_good; eauto. Qed.

End Structural.

Lemma transpose_ok_iff m n : 0 < m -> 0 < n ->
  ((forall (T : Type) (A : matrix T) f, is_mat A m n f ->
      exists B, mtranspose A = Ret B /\ is_mat B n m (fun i j => f j i))
   <-> (m = n \/ m = 1 \/ n = 1)).
Proof.
  intros Hm Hn. split.
  2: { intros Hs T A f HA. apply transpose_ok; assumption. }
  intros H.
  destruct (Nat.eq_dec m n); [auto|]. destruct (Nat.eq_dec m 1); [auto|]. destruct (Nat.eq_dec n 1); [auto|].
  exfalso.
  set (A := mkMatrix m n (seq 0 (m * n))).
  assert (HA : is_mat A m n (fun i j => j * m + i)).
  { apply is_mat_intro; cbn [A rows cols data]; auto; [apply seq_length|].
    intros i j Hi Hj. pose proof (idx_bound _ _ _ _ Hi Hj).
    rewrite (vget_ok _ _ 0) by (rewrite seq_length; assumption). rewrite seq_nth by assumption. reflexivity. }
  destruct (H nat A _ HA) as (B & E & HB).
  destruct (mtranspose_bad_entry A m n _ ltac:(lia) ltac:(lia) HA) as (B' & E' & _ & Hg).
  rewrite E in E'. injection E' as <-.
  rewrite (is_mat_get _ _ _ _ 1 0 HB) in Hg by lia. injection Hg as Hg.
  pose proof (Nat.div_mod n m ltac:(lia)). lia.
Qed.

Section Products.
Context {T : Type} {O : Ops T}.
Implicit Types A B C : matrix T.

Lemma add_iff A B : wf A -> wf B -> ((exists C, madd A B = Ret C) <-> dim A = dim B).
Proof.
  intros HA HB. split.
  - intros (C & E). unfold madd in E. apply bind_ret in E. destruct E as (u & E & _). apply rassert_ret in E.
    apply andb_prop in E. destruct E as [E1 E2]. apply Nat.eqb_eq in E1, E2. unfold dim. congruence.
  - intros E. unfold dim in E. injection E as E1 E2. unfold madd. rewrite E1, E2, !Nat.eqb_refl. simpl. eauto.
Qed.
Lemma sub_iff A B : wf A -> wf B -> ((exists C, msub A B = Ret C) <-> dim A = dim B).
Proof.
  intros HA HB. split.
  - intros (C & E). unfold msub in E. apply bind_ret in E. destruct E as (u & E & _). apply rassert_ret in E.
    apply andb_prop in E. destruct E as [E1 E2]. apply Nat.eqb_eq in E1, E2. unfold dim. congruence.
  - intros E. unfold dim in E. injection E as E1 E2. unfold msub. rewrite E1, E2, !Nat.eqb_refl. simpl. eauto.
Qed.
Lemma mul_iff A B : wf A -> wf B -> ((exists C, mmul A B = Ret C) <-> cols A = rows B).
Proof.
  intros HA HB. split.
  - intros (C & E). unfold mmul in E. apply bind_ret in E. destruct E as (u & E & _). apply rassert_ret in E.
    apply Nat.eqb_eq in E. assumption.
  - intros E. pose proof (wf_is_mat zero A HA) as H1. pose proof (wf_is_mat zero B HB) as H2.
    rewrite <- E in H2. destruct (mmul_spec _ _ _ _ _ _ _ H1 H2) as (C & EC & _). eauto.
Qed.
Lemma trace_iff A : wf A -> ((exists t, mtrace A = Ret t) <-> rows A = cols A).
Proof.
  intros HA. split.
  - intros (C & E). unfold mtrace in E. apply bind_ret in E. destruct E as (u & E & _). apply rassert_ret in E.
    apply Nat.eqb_eq in E. assumption.
  - intros E. pose proof (wf_is_mat zero A HA) as H1. rewrite <- E in H1. rewrite (mtrace_spec _ _ _ H1). eauto.
Qed.
End Products.

Section Laws.
Context {T : Type} {O : Ops T} (L : RingLaws O).
Add Ring TRL : (rl_ring O L).
Implicit Types A B C : matrix T.

Lemma mul_assoc A B C m k l n f g h :
  is_mat A m k f -> is_mat B k l g -> is_mat C l n h ->
  exists AB BC D, mmul A B = Ret AB /\ mmul B C = Ret BC /\ mmul AB C = Ret D /\ mmul A BC = Ret D.
Proof.
  intros HA HB HC.
  destruct (mmul_spec A B _ _ _ _ _ HA HB) as (AB & E1 & H1).
  destruct (mmul_spec B C _ _ _ _ _ HB HC) as (BC & E2 & H2).
  destruct (mmul_spec AB C _ _ _ _ _ H1 HC) as (D & E3 & H3).
  destruct (mmul_spec A BC _ _ _ _ _ HA H2) as (D' & E4 & H4).
  exists AB, BC, D. split; [assumption|]. split; [assumption|]. split; [assumption|].
  rewrite E4. f_equal. apply (is_mat_unique _ _ m n (mulf k f (mulf l g h))); [assumption|].
  eapply is_mat_ext; [|exact H3]. intros. apply (mulf_assoc L).
Qed.

Lemma mul_add_distr_l A B C m k n f g h :
  is_mat A m k f -> is_mat B k n g -> is_mat C k n h ->
  exists S AB AC D, madd B C = Ret S /\ mmul A B = Ret AB /\ mmul A C = Ret AC /\
    mmul A S = Ret D /\ madd AB AC = Ret D.
Proof.
  intros HA HB HC.
  destruct (madd_spec B C _ _ _ _ HB HC) as (S & E1 & H1).
  destruct (mmul_spec A B _ _ _ _ _ HA HB) as (AB & E2 & H2).
  destruct (mmul_spec A C _ _ _ _ _ HA HC) as (AC & E3 & H3).
  destruct (mmul_spec A S _ _ _ _ _ HA H1) as (D & E4 & H4).
  destruct (madd_spec AB AC _ _ _ _ H2 H3) as (D' & E5 & H5).
  exists S, AB, AC, D. repeat (split; [assumption|]). rewrite E5. f_equal.
  eapply is_mat_unique; [exact H5|]. eapply is_mat_ext; [|exact H4]. intros. cbv beta. apply (mulf_add_r L).
Qed.

Lemma mul_add_distr_r A B C m k n f g h :
  is_mat A m k f -> is_mat B m k g -> is_mat C k n h ->
  exists S AC BC D, madd A B = Ret S /\ mmul A C = Ret AC /\ mmul B C = Ret BC /\
    mmul S C = Ret D /\ madd AC BC = Ret D.
Proof.
  intros HA HB HC.
  destruct (madd_spec A B _ _ _ _ HA HB) as (S & E1 & H1).
  destruct (mmul_spec A C _ _ _ _ _ HA HC) as (AC & E2 & H2).
  destruct (mmul_spec B C _ _ _ _ _ HB HC) as (BC & E3 & H3).
  destruct (mmul_spec S C _ _ _ _ _ H1 HC) as (D & E4 & H4).
  destruct (madd_spec AC BC _ _ _ _ H2 H3) as (D' & E5 & H5).
  exists S, AC, BC, D. repeat (split; [assumption|]). rewrite E5. f_equal.
  eapply is_mat_unique; [exact H5|]. eapply is_mat_ext; [|exact H4]. intros. cbv beta. apply (mulf_add_l L).
Qed.

Lemma mul_one A m n f : is_mat A m n f ->
  exists Im In, mone m = Ret Im /\ mone n = Ret In /\ mmul Im A = Ret A /\ mmul A In = Ret A.
Proof.
  intros HA. destruct (mone_spec m) as (Im & E1 & H1). destruct (mone_spec n) as (In & E2 & H2).
  exists Im, In. split; [assumption|]. split; [assumption|].
  destruct (mmul_spec Im A _ _ _ _ _ H1 HA) as (X & EX & HX).
  destruct (mmul_spec A In _ _ _ _ _ HA H2) as (Y & EY & HY).
  split.
  - rewrite EX. f_equal. eapply is_mat_unique; [|exact HA]. eapply is_mat_ext; [|exact HX].
    intros. apply (mulf_id_l L). assumption.
  - rewrite EY. f_equal. eapply is_mat_unique; [|exact HA]. eapply is_mat_ext; [|exact HY].
    intros. apply (mulf_id_r L). assumption.
Qed.

Lemma mul_transpose A B n f g : 0 < n -> is_mat A n n f -> is_mat B n n g ->
  exists AB At Bt D, mmul A B = Ret AB /\ mtranspose A = Ret At /\ mtranspose B = Ret Bt /\
    mtranspose AB = Ret D /\ mmul Bt At = Ret D.
Proof.
  intros Hn HA HB.
  destruct (mmul_spec A B _ _ _ _ _ HA HB) as (AB & E1 & H1).
  destruct (transpose_ok A n n f) as (At & E2 & H2); auto.
  destruct (transpose_ok B n n g) as (Bt & E3 & H3); auto.
  destruct (transpose_ok AB n n _ Hn Hn (or_introl eq_refl) H1) as (D & E4 & H4).
  destruct (mmul_spec Bt At _ _ _ _ _ H3 H2) as (D' & E5 & H5).
  exists AB, At, Bt, D. repeat (split; [assumption|]). rewrite E5. f_equal.
  eapply is_mat_unique; [exact H5|]. eapply is_mat_ext; [|exact H4]. intros. cbv beta. apply (mulf_transpose L).
Qed.

Lemma add_comm_assoc A B C m n f g h :
  is_mat A m n f -> is_mat B m n g -> is_mat C m n h ->
  exists AB BC D, madd A B = Ret AB /\ madd B A = Ret AB /\ madd B C = Ret BC /\
    madd AB C = Ret D /\ madd A BC = Ret D /\ msub AB B = Ret A.
Proof.
  intros HA HB HC.
  destruct (madd_spec A B _ _ _ _ HA HB) as (AB & E1 & H1).
  destruct (madd_spec B A _ _ _ _ HB HA) as (BA & E2 & H2).
  destruct (madd_spec B C _ _ _ _ HB HC) as (BC & E3 & H3).
  destruct (madd_spec AB C _ _ _ _ H1 HC) as (D & E4 & H4).
  destruct (madd_spec A BC _ _ _ _ HA H3) as (D' & E5 & H5).
  destruct (msub_spec AB B _ _ _ _ H1 HB) as (A' & E6 & H6).
  exists AB, BC, D. split; [assumption|]. split.
  { rewrite E2. f_equal. eapply is_mat_unique; [exact H2|]. eapply is_mat_ext; [|exact H1]. intros; cbv beta; ring. }
  split; [assumption|]. split; [assumption|]. split.
  { rewrite E5. f_equal. eapply is_mat_unique; [exact H5|]. eapply is_mat_ext; [|exact H4]. intros; cbv beta; ring. }
  rewrite E6. f_equal. eapply is_mat_unique; [|exact HA]. eapply is_mat_ext; [|exact H6]. intros; cbv beta; ring.
Qed.

Lemma trace_mul_comm A B m n f g : is_mat A m n f -> is_mat B n m g ->
  exists AB BA t, mmul A B = Ret AB /\ mmul B A = Ret BA /\ mtrace AB = Ret t /\ mtrace BA = Ret t.
Proof.
  intros HA HB.
  destruct (mmul_spec A B _ _ _ _ _ HA HB) as (AB & E1 & H1).
  destruct (mmul_spec B A _ _ _ _ _ HB HA) as (BA & E2 & H2).
  exists AB, BA. eexists. split; [assumption|]. split; [assumption|].
  rewrite (mtrace_spec _ _ _ H1), (mtrace_spec _ _ _ H2). split; [reflexivity|]. f_equal. symmetry.
  apply (trace_mulf L).
Qed.

Lemma trace_linear A B n f g c : is_mat A n n f -> is_mat B n n g ->
  exists S ta tb, madd A B = Ret S /\ mtrace A = Ret ta /\ mtrace B = Ret tb /\
    mtrace S = Ret (add ta tb) /\ mtrace (mmul_scalar A c) = Ret (mul ta c).
Proof.
  intros HA HB.
  destruct (madd_spec A B _ _ _ _ HA HB) as (S & E1 & H1).
  exists S. do 2 eexists. split; [assumption|].
  rewrite (mtrace_spec _ _ _ H1), (mtrace_spec _ _ _ HA), (mtrace_spec _ _ _ HB).
  split; [reflexivity|]. split; [reflexivity|]. split.
  - f_equal. apply (sumn_add L n (fun i => f i i) (fun i => g i i)).
  - unfold mmul_scalar. rewrite (mtrace_spec _ n _ (mapply_spec _ _ _ _ _ HA)). f_equal. apply (sumn_mul_r L n c (fun i => f i i)).
Qed.

(** Matrix times vector agrees with the matrix product. *)
Lemma mul_vec_assoc A B v m k n f g h :
  is_mat A m k f -> is_mat B k n g -> is_col v n h ->
  exists AB Bv w, mmul A B = Ret AB /\ mmul_vec B v = Ret Bv /\ mmul_vec AB v = Ret w /\ mmul_vec A Bv = Ret w.
Proof.
  intros HA HB Hv.
  destruct (mmul_spec A B _ _ _ _ _ HA HB) as (AB & E1 & H1).
  destruct (mmul_vec_spec B _ _ _ v h HB Hv) as (Bv & E2 & H2).
  destruct (mmul_vec_spec AB _ _ _ v h H1 Hv) as (w & E3 & H3).
  destruct (mmul_vec_spec A _ _ _ Bv _ HA H2) as (w' & E4 & H4).
  exists AB, Bv, w. repeat (split; [assumption|]). rewrite E4. f_equal.
  eapply is_mat_unique; [exact H4|]. eapply is_mat_ext; [|exact H3]. intros i j Hi Hj. cbv beta.
  exact (mulf_assoc L k n f g (fun a _ => h a) i 0).
Qed.

Lemma dotp_laws u v w m f g h c : 0 < m -> is_col u m f -> is_col v m g -> is_col w m h ->
  exists s d1 d2, vadd u v = Ret s /\ vdotp u w = Ret d1 /\ vdotp v w = Ret d2 /\
    vdotp w u = Ret d1 /\ vdotp s w = Ret (add d1 d2) /\ vdotp (vmul_scalar u c) w = Ret (mul c d1).
Proof.
  intros Hm Hu Hv Hw.
  destruct (madd_spec u v _ _ _ _ Hu Hv) as (s & E1 & H1).
  exists s. do 2 eexists. split; [exact E1|].
  rewrite (vdotp_spec u w m f h Hm Hu Hw), (vdotp_spec v w m g h Hm Hv Hw), (vdotp_spec w u m h f Hm Hw Hu).
  split; [reflexivity|]. split; [reflexivity|]. split.
  { f_equal. apply sumn_ext. intros; ring. }
  split.
  - rewrite (vdotp_spec s w m (fun i => add (f i) (g i)) h Hm H1 Hw). f_equal.
    rewrite <- (sumn_add L). apply sumn_ext. intros; ring.
  - rewrite (vdotp_spec (vmul_scalar u c) w m (fun i => mul (f i) c) h Hm).
    + f_equal. rewrite <- (sumn_mul_l L). apply sumn_ext. intros; ring.
    + exact (mapply_spec (fun x => mul x c) u m 1 _ Hu).
    + assumption.
Qed.
End Laws.
