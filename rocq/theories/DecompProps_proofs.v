(** Lemmas in the shape of the property theorems C20-C24 and C27, and example data. *)
From Coq Require Import Arith List Bool Lia Ring Reals Lra Psatz SpecFloat.
From Verif Require Import Outcome Scalar Matrix_model Transpose_model Vector_model LU_model Decomp_model Matrix_spec LU_spec
  Decomp_spec Matrix_proofs Transpose_proofs Vector_proofs Sums MatProps_proofs VecProps_proofs LUProps_proofs Chol_proofs Norm_proofs
  Ortho_proofs Householder_proofs RealOps.
Import ListNotations.
Local Open Scope nat_scope.

Lemma is_mat_list {T} (d : T) m n (l : list T) : length l = m * n -> is_mat (mkMatrix m n l) m n (fun i j => nth (j * m + i) l d).
Proof. intros H. apply is_mat_intro; auto. intros i j Hi Hj. apply vget_ok. rewrite H. nia. Qed.

Lemma is_col_list {T} (d : T) m (l : list T) : length l = m -> is_col (mkMatrix m 1 l) m (fun i => nth i l d).
Proof.
  intros H. eapply is_mat_ext; [|apply (is_mat_list d m 1 l); lia].
  intros i j Hi Hj. assert (j = 0) by lia. subst j. reflexivity.
Qed.

Section Real.
Local Open Scope R_scope.

Lemma chol_iff (A : matrix R) n a : is_mat A n n a -> symmetric n a ->
  (pos_def n a <-> forall l k x, dec_cholesky A = Ret (Ok l) -> (k < n)%nat -> mget l k k = Ret x -> 0 < x).
Proof.
  intros HA Hs. split.
  - intros Hp l k x E Hk Hx. destruct (dec_cholesky_ok A n a HA Hs (or_introl Hp)) as (l' & g & E' & Hl & _ & Hd & _).
    rewrite E' in E. injection E as <-. rewrite (is_mat_get _ _ _ _ _ _ Hl) in Hx by assumption. injection Hx as <-. auto.
  - intros H. destruct (dec_cholesky_ok A n a HA Hs (or_intror H)) as (l' & g & E' & Hl & Hlow & Hd & Hp).
    apply (gram_pos_def n a g Hlow); auto. intros i Hi. pose proof (Hd i Hi). lra.
Qed.

Definition exSPD : nat -> nat -> R := fun i j => if (i =? j)%nat then 2 else 1.
Lemma exSPD_mat : is_mat (mkMatrix 2 2 [2; 1; 1; 2]) 2 2 exSPD.
Proof.
  eapply is_mat_ext; [|apply (is_mat_list 0 2 2); reflexivity]. intros i j Hi Hj.
  destruct i as [|[|i]]; [| |lia]; (destruct j as [|[|j]]; [| |lia]); reflexivity.
Qed.
Lemma exSPD_sym : symmetric 2 exSPD.
Proof. intros i j Hi Hj. unfold trf, exSPD. rewrite Nat.eqb_sym. reflexivity. Qed.
Lemma exSPD_pd : pos_def 2 exSPD.
Proof.
  intros x (i & Hi & Hx). unfold quad, exSPD. simpl.
  set (u := x 0%nat) in *. set (w := x 1%nat) in *.
  assert (u <> 0 \/ w <> 0). { destruct i as [|[|i]]; [left; exact Hx|right; exact Hx|lia]. }
  destruct H as [H|H]; assert (0 < u * u \/ 0 < w * w) by (first [left; apply Rsqr_pos_lt; assumption|right; apply Rsqr_pos_lt; assumption]);
   destruct H0; pose proof (Rle_0_sqr u); pose proof (Rle_0_sqr w); pose proof (Rle_0_sqr (u + w)); unfold Rsqr in *; nra.
Qed.

(** Vectors. *)
Lemma euclid_norm (v : vector R) n f : (is_col v n f \/ is_row v n f) ->
  exists N, vp_norm v 2 = Ret N /\ veucl_norm v = Ret N /\ N = enorm n f /\ 0 <= N /\
    (N = 0 <-> forall i, (i < n)%nat -> f i = 0) /\
    (forall c, vp_norm (vmul_scalar v c) 2 = Ret (Rabs c * N)).
Proof.
  intros H. exists (enorm n f). split; [apply vp_norm_2; assumption|]. split; [apply vp_norm_2; assumption|]. split; [reflexivity|].
  split; [apply enorm_nonneg|]. split; [apply enorm_zero|].
  intros c. rewrite <- enorm_scale. rewrite <- (enorm_ext n (fun i => f i * c)) by (intros; ring).
  apply vp_norm_2. destruct H as [H|H]; [left|right]; exact (mapply_spec (fun x => mul x c) _ _ _ _ H).
Qed.

Lemma euclid_triangle (v w : vector R) n f g : (is_col v n f /\ is_col w n g \/ is_row v n f /\ is_row w n g) ->
  exists u a b c, vadd v w = Ret u /\ vp_norm v 2 = Ret a /\ vp_norm w 2 = Ret b /\ vp_norm u 2 = Ret c /\ c <= a + b.
Proof.
  intros H. assert (Hu : exists u, vadd v w = Ret u /\ (is_col u n (fun i => f i + g i) \/ is_row u n (fun i => f i + g i))).
  { destruct H as [[H1 H2]|[H1 H2]].
    - destruct (madd_spec v w n 1 _ _ H1 H2) as (u & E & Hu). exists u. split; [exact E|left; exact Hu].
    - destruct (madd_spec v w 1 n _ _ H1 H2) as (u & E & Hu). exists u. split; [exact E|right; exact Hu]. }
  destruct Hu as (u & E & Hu). exists u, (enorm n f), (enorm n g), (enorm n (fun i => f i + g i)).
  split; [exact E|]. split; [apply vp_norm_2; tauto|]. split; [apply vp_norm_2; tauto|]. split; [apply vp_norm_2; assumption|].
  apply enorm_triangle.
Qed.

Lemma p_norm_even (v : vector R) n f k : (is_col v n f \/ is_row v n f) -> (1 <= k)%nat ->
  vp_norm v (INR (2 * k)) = Ret (R_pow (sumn n (fun i => Rabs (f i) ^ (2 * k))) (1 / INR (2 * k))).
Proof.
  intros H Hk. rewrite (vp_norm_nat v n f) by (auto; lia). do 2 f_equal. apply sumn_ext. intros i Hi.
  rewrite RPow_abs. rewrite Rabs_pos_eq; [reflexivity|]. rewrite pow_mult. apply pow_le. simpl. rewrite Rmult_1_r. apply Rle_0_sqr.
Qed.

Lemma p_norm_odd_witness : vp_norm (mkMatrix 2 1 [1; -1]) 1 = Ret 0.
Proof.
  pose proof (is_col_list 0 2 [1; -1] eq_refl) as H.
  pose proof (vp_norm_nat _ 2 _ 1 (or_introl H) (le_n 1)) as E. change (INR 1) with 1 in E. rewrite E. f_equal. simpl.
  replace (0 + 1 * 1 + -1 * 1) with 0 by ring.
  unfold R_pow. destruct (Req_EM_T (1 / 1) 0); [lra|]. destruct (Req_EM_T 0 0); [reflexivity|congruence].
Qed.

(** Triangle inequality fails for p = 1 as well: |(1,0)| = 1, |(0,-1)| = -1 and |(0,1)+(0,-1)| = 0. *)
Lemma p_norm_odd_negative : vp_norm (mkMatrix 1 1 [-1]) 1 = Ret (-1).
Proof.
  pose proof (is_col_list 0 1 [-1] eq_refl) as H.
  pose proof (vp_norm_nat _ 1 _ 1 (or_introl H) (le_n 1)) as E. change (INR 1) with 1 in E. rewrite E. f_equal. simpl.
  replace (0 + -1 * 1) with (-1) by ring. replace (1/1) with 1 by field. apply R_pow_one.
Qed.
End Real.

(** QR: the swap matrix is returned unchanged, over any element type. *)
Lemma dec_qr_swap (T : Type) (O : Ops T) (P : POps T) : eqb zero zero = true ->
  dec_qr (mkMatrix 2 2 [zero; one; one; zero]) = Ret (mkMatrix 2 2 [one; zero; zero; one], mkMatrix 2 2 [zero; one; one; zero]).
Proof. intros H. cbv -[eqb zero one mul add div neg tpow half negb andb]. rewrite H. rewrite !andb_false_r. reflexivity. Qed.

(** QR of an upper triangular matrix: the identity and the matrix itself. *)
Lemma dec_qr_upper (T : Type) (O : Ops T) (P : POps T) (A : matrix T) m n a : eqb zero zero = true ->
  is_mat A m n a -> (n <= m)%nat -> (0 < m)%nat -> (forall i j, (j < i < m)%nat -> (j < n)%nat -> a i j = zero) ->
  exists I, mone m = Ret I /\ dec_qr A = Ret (I, A).
Proof.
  intros H0 HA Hnm Hm Hz. destruct (mone_spec (T:=T) m) as (I & E & HI). exists I. split; [exact E|].
  unfold dec_qr. rewrite (is_mat_rows _ _ _ _ HA), (is_mat_cols _ _ _ _ HA), (proj2 (Nat.leb_le n m) Hnm). cbn [rassert bind]. rewrite E. cbn [bind].
  assert (L : for_loop 0 n (fun j st => for_loop_rev (j + 1) m (qr_step j) st) (I, A) = Ret (I, A)).
  { destruct (for_loop_ind (fun _ st => st = (I, A)) (fun j st => for_loop_rev (j + 1) m (qr_step j) st) 0 n (I, A)) as (st & Es & Hs); [lia|reflexivity| |rewrite Es, Hs; reflexivity].
    intros j st Hj ->. destruct (for_loop_rev_ind (fun _ st => st = (I, A)) (qr_step j) (j + 1) m (I, A)) as (st & Es & Hs); [lia|reflexivity| |exists st; auto].
    intros i st Hi ->. exists (I, A). split; [|reflexivity]. unfold qr_step. cbn [fst snd].
    rewrite (is_mat_get A m n a j j HA) by lia. cbn [bind]. rewrite (is_mat_get A m n a i j HA) by lia. cbn [bind].
    rewrite (Hz i j) by lia. rewrite H0. cbn [negb]. rewrite !andb_false_r. reflexivity. }
  rewrite L. cbn [bind fst snd].
  destruct (mtranspose_good I m m delta Hm Hm (or_introl eq_refl) HI) as (It & Et & HIt). rewrite Et. cbn [bind]. do 2 f_equal. 
  apply (is_mat_unique It I m m delta); [|exact HI]. revert HIt. apply is_mat_ext. intros i j _ _. unfold delta. rewrite Nat.eqb_sym. reflexivity.
Qed.
