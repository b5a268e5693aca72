(** Proofs about Vector::reflector over the reals. *)
From Coq Require Import Arith List Bool Lia Reals Lra Psatz.
From Verif Require Import Outcome Scalar Matrix_model Transpose_model Vector_model LU_model Decomp_model Int_model Matrix_spec LU_spec
  Decomp_spec Matrix_proofs Vector_proofs Sums MatProps_proofs Chol_proofs RealOps Norm_proofs.
Import ListNotations.
Local Open Scope R_scope.

Lemma fsign_R x : fsign x = if Rlt_dec 0 x then 1 else if Req_EM_T x 0 then 0 else -1.
Proof.
  unfold fsign. change (@ltb R R_ops) with R_ltb. change (@leb R R_ops) with R_leb. unfold R_ltb, R_leb. cbn [zero one neg R_ops].
  destruct (Rlt_dec 0 x); [reflexivity|]. destruct (Req_EM_T x 0) as [->|N].
  - destruct (Rle_dec 0 0); [reflexivity|lra].
  - destruct (Rle_dec 0 x); [|reflexivity]. destruct (Rle_dec x 0); [lra|reflexivity].
Qed.

(** The shifted vector, v + sign(v_0) |v| e_0. *)
Definition shifted (n : nat) (f : nat -> R) : nat -> R :=
  fun i => if (i =? 0)%nat then f 0%nat + fsign (f 0%nat) * enorm n f else f i.

Lemma vreflector_ok (v : vector R) n f : is_col v n f -> (1 <= n)%nat ->
  exists r g, vreflector fsign v = Ret r /\ is_col r n g /\
    g 0%nat = (f 0%nat + fsign (f 0%nat) * enorm n f) / enorm n (shifted n f) /\
    (forall i, (0 < i < n)%nat -> g i = f i).
Proof.
  intros Hv Hn. unfold vreflector. change (add one one) with 2. cbv zeta.
  rewrite (vp_norm_2 v n f (or_introl Hv)). cbn [bind]. rewrite (col_get v n f 0 Hv) by lia. cbn [bind].
  destruct (col_set v n f 0 (f 0%nat + fsign (f 0%nat) * enorm n f) Hv ltac:(lia)) as (x & Ex & Hx).
  change (add (f 0%nat) (mul (fsign (f 0%nat)) (enorm n f))) with (f 0%nat + fsign (f 0%nat) * enorm n f).
  rewrite Ex. cbn [bind]. rewrite (vp_norm_2 x n _ (or_introl Hx)). cbn [bind]. rewrite (col_get x n _ 0 Hx) by lia. cbn [bind].
  destruct (col_set x n _ 0 (div (upd1 f 0 (f 0%nat + fsign (f 0%nat) * enorm n f) 0)
     (enorm n (upd1 f 0 (f 0%nat + fsign (f 0%nat) * enorm n f)))) Hx ltac:(lia)) as (y & Ey & Hy).
  rewrite Ey. eexists; eexists. split; [reflexivity|]. split; [exact Hy|]. split; [reflexivity|].
  intros i Hi. unfold upd1. destruct i; [lia|]. reflexivity.
Qed.

Lemma vreflector_empty (v : vector R) f : is_col v 0 f -> vreflector fsign v = Panic.
Proof.
  intros Hv. unfold vreflector. change (add one one) with 2. cbv zeta.
  rewrite (vp_norm_2 v 0 f (or_introl Hv)). cbn [bind]. rewrite (col_get_panic v 0 f 0 Hv) by lia. reflexivity.
Qed.

Lemma sumsq_first n f : sumsq (S n) f = f 0%nat * f 0%nat + sumsq n (fun i => f (S i)).
Proof. unfold sumsq. rewrite (sumn_first R_RingLaws n). reflexivity. Qed.

(** With a first component that is not zero and some other component that is not zero, reflecting v
    in the hyperplane orthogonal to the answer annihilates the components 1.. exactly when the
    shifted vector has length one. *)
Lemma reflector_iff n f g : (exists i, (0 < i < n)%nat /\ f i <> 0) -> f 0%nat <> 0 ->
  g 0%nat = (f 0%nat + fsign (f 0%nat) * enorm n f) / enorm n (shifted n f) ->
  (forall i, (0 < i < n)%nat -> g i = f i) ->
  ((forall i, (0 < i < n)%nat ->
      f i - 2 * sumn n (fun j => g j * f j) / sumn n (fun j => g j * g j) * g i = 0) <-> enorm n (shifted n f) = 1).
Proof.
  intros (k & Hk & Hfk) H0 Hg0 Hg. destruct n as [|n]; [lia|].
  set (t := sumsq n (fun i => f (S i))).
  assert (Ht : 0 < t).
  { destruct (sumsq_nonneg n (fun i => f (S i))) as [L|E]; [exact L|]. exfalso. symmetry in E.
    apply (proj1 (sumsq_zero _ _)) with (i := (k - 1)%nat) in E; [|lia]. apply Hfk. rewrite <- E. f_equal. lia. }
  set (x := f 0%nat) in *. set (N := enorm (S n) f) in *. set (M := enorm (S n) (shifted (S n) f)) in *.
  set (s := fsign x) in *.
  assert (HN : N * N = x * x + t) by (unfold N; rewrite enorm_sq, sumsq_first; reflexivity).
  assert (HN0 : 0 < N). { pose proof (enorm_nonneg (S n) f) as P. fold N in P. destruct P as [P|P]; [exact P|]. exfalso. rewrite <- P in HN. pose proof (Rle_0_sqr x) as Q. unfold Rsqr in Q. lra. }
  assert (HM : M * M = (x + s * N) * (x + s * N) + t).
  { unfold M. rewrite enorm_sq, sumsq_first. reflexivity. }
  assert (HM0 : 0 < M). { pose proof (enorm_nonneg (S n) (shifted (S n) f)) as P. fold M in P. destruct P as [P|P]; [exact P|]. exfalso. rewrite <- P in HM. pose proof (Rle_0_sqr (x + s * N)) as Q. unfold Rsqr in Q. lra. }
  assert (Hs : (0 < x /\ s = 1) \/ (x < 0 /\ s = -1)).
  { unfold s. rewrite fsign_R. destruct (Rlt_dec 0 x); [left; auto|]. destruct (Req_EM_T x 0); [contradiction|right; split; lra]. }
  set (r := g 0%nat) in *.
  assert (E1 : sumn (S n) (fun j => g j * f j) = r * x + t).
  { rewrite (sumn_first R_RingLaws n). cbn [add R_ops]. f_equal. apply sumn_ext. intros i Hi. rewrite Hg by lia. reflexivity. }
  assert (E2 : sumn (S n) (fun j => g j * g j) = r * r + t).
  { rewrite (sumn_first R_RingLaws n). cbn [add R_ops]. f_equal. apply sumn_ext. intros i Hi. rewrite Hg by lia. reflexivity. }
  rewrite E1, E2.
  assert (Hr : r * M = x + s * N) by (rewrite Hg0; field; lra).
  assert (D : 0 < r * r + t) by nra.
  assert (K : (forall i, (0 < i < S n)%nat -> f i - 2 * (r * x + t) / (r * r + t) * g i = 0) <-> r * r - 2 * r * x - t = 0).
  { split.
    - intros H. specialize (H k Hk). rewrite Hg in H by assumption.
      assert (E : f k * (r * r - 2 * r * x - t) = 0).
      { replace (f k * (r * r - 2 * r * x - t)) with ((f k - 2 * (r * x + t) / (r * r + t) * f k) * (r * r + t)) by (field; lra). rewrite H; ring. }
      apply Rmult_integral in E. destruct E; [contradiction|assumption].
    - intros H i Hi. rewrite Hg by assumption. replace (f i - 2 * (r * x + t) / (r * r + t) * f i) with (f i * (r * r - 2 * r * x - t) / (r * r + t)) by (field; lra).
      rewrite H. unfold Rdiv. ring. }
  rewrite K.
  assert (Fac : r * r - 2 * r * x - t = (r - x - s * N) * (r - x + s * N)).
  { assert (s * s = 1) by (destruct Hs as [[_ ->]|[_ ->]]; ring). replace ((r - x - s * N) * (r - x + s * N)) with (r * r - 2 * r * x + x * x - (s * s) * (N * N)) by ring.
    rewrite H, HN. ring. }
  assert (P : 0 < s * (x + s * N)) by (destruct Hs as [[? ->]|[? ->]]; lra).
  assert (Pr : 0 < s * r).
  { replace (s * r) with (s * (x + s * N) / M) by (rewrite <- Hr; field; lra). apply Rdiv_lt_0_compat; assumption. }
  assert (Nx : Rabs x < N).
  { apply Rsqr_incrst_0; [|apply Rabs_pos|lra]. rewrite <- Rsqr_abs. unfold Rsqr. lra. }
  rewrite Fac. split.
  - intros E. apply Rmult_integral in E. destruct E as [E|E].
    + assert (Q : r * (M - 1) = 0) by nra. apply Rmult_integral in Q. destruct Q as [Q|Q]; [rewrite Q in Pr; lra|lra].
    + exfalso. destruct Hs as [[S1 S2]|[S1 S2]]; rewrite S2 in *.
      * rewrite Rabs_right in Nx by lra. lra.
      * rewrite Rabs_left in Nx by lra. lra.
  - intros E. rewrite E, Rmult_1_r in Hr. rewrite Hr. ring.
Qed.

(** A vector whose first component is zero (and which is not the zero vector) is returned as it is. *)
Lemma reflector_zero_first n f : f 0%nat = 0 ->
  (f 0%nat + fsign (f 0%nat) * enorm n f) / enorm n (shifted n f) = 0.
Proof. intros E. rewrite E, fsign_R. destruct (Rlt_dec 0 0); [lra|]. destruct (Req_EM_T 0 0); [|lra]. unfold Rdiv. ring. Qed.

Lemma shifted_34 : enorm 2 (shifted 2 (fun i => nth i [3; 4] 0)) <> 1.
Proof.
  assert (N : enorm 2 (fun i => nth i [3; 4] 0) = 5).
  { apply Rsqr_inj; [apply enorm_nonneg|lra|]. unfold Rsqr. rewrite enorm_sq. unfold sumsq. cbn. ring. }
  intros E. apply (f_equal (fun z => z * z)) in E. rewrite enorm_sq in E. unfold sumsq, shifted in E. rewrite N, fsign_R in E.
  cbn in E. destruct (Rlt_dec 0 3); lra.
Qed.
