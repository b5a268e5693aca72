(** Proofs about vector norms. *)
From Coq Require Import Arith List Bool Lia Reals Lra Psatz.
From Verif Require Import Outcome Scalar Matrix_model Transpose_model Vector_model LU_model Decomp_model Matrix_spec LU_spec
  Decomp_spec Matrix_proofs Transpose_proofs Vector_proofs Sums MatProps_proofs VecProps_proofs LUProps_proofs Chol_proofs RealOps.
Import ListNotations.
Local Open Scope nat_scope.

Section Gen.
Context {T : Type} {O : Ops T} {P : POps T}.

Lemma vp_norm_gen v n f p : (is_col v n f \/ is_row v n f) -> leb one p = true ->
  vp_norm v p = Ret (tpow (sumn n (fun i => tpow (f i) p)) (div one p)).
Proof.
  intros Hv Hp. unfold vp_norm. rewrite Hp. cbn [rassert bind].
  assert (Hd : rows v * cols v = n) by (destruct Hv as [H|H]; destruct (is_mat_dim _ _ _ _ H) as [-> ->]; lia).
  rewrite Hd. rewrite (sum_loop n (fun i => tpow (f i) p)); [reflexivity|].
  intros i s Hi. destruct Hv as [H|H].
  - rewrite (col_get v n f i H Hi). reflexivity.
  - rewrite (row_get v n f i H Hi). reflexivity.
Qed.

Lemma vp_norm_panic v p : leb one p = false -> vp_norm v p = Panic.
Proof. intros H. unfold vp_norm. rewrite H. reflexivity. Qed.
End Gen.

Section Real.
Local Open Scope R_scope.

Lemma R_leb_1 p : 1 <= p -> leb one p = true.
Proof. intros H. apply R_leb_true. exact H. Qed.

Lemma sumsq_nonneg n f : 0 <= sumsq n f.
Proof. apply sumn_R_nonneg. intros. apply Rle_0_sqr. Qed.

Lemma vp_norm_2 (v : vector R) n f : is_col v n f \/ is_row v n f -> vp_norm v 2 = Ret (enorm n f).
Proof.
  intros H. rewrite (vp_norm_gen v n f 2 H) by (apply R_leb_1; lra). f_equal.
  change (@tpow R R_pops) with R_pow. change (@div R R_ops one 2) with (1 / 2).
  rewrite (sumn_ext n _ (fun i => f i * f i)) by (intros; apply R_pow_2).
  apply R_pow_half. apply sumsq_nonneg.
Qed.

Lemma enorm_nonneg n f : 0 <= enorm n f.
Proof. apply sqrt_pos. Qed.

Lemma sumsq_zero n f : sumsq n f = 0 <-> forall i, (i < n)%nat -> f i = 0.
Proof.
  split.
  - intros H i Hi. apply Rsqr_0_uniq. apply (sumn_R_zero n (fun i => f i * f i)); auto. intros. apply Rle_0_sqr.
  - intros H. apply (sumn_zero_ext R_RingLaws). intros i Hi. rewrite H by assumption. simpl. ring.
Qed.

Lemma enorm_sq n f : enorm n f * enorm n f = sumsq n f.
Proof. apply sqrt_sqrt. apply sumsq_nonneg. Qed.

Lemma enorm_zero n f : enorm n f = 0 <-> forall i, (i < n)%nat -> f i = 0.
Proof.
  rewrite <- sumsq_zero. split.
  - intros H. apply sqrt_eq_0; [apply sumsq_nonneg|exact H].
  - intros H. unfold enorm. rewrite H. apply sqrt_0.
Qed.

Lemma enorm_scale n c f : enorm n (fun i => c * f i) = Rabs c * enorm n f.
Proof.
  unfold enorm, sumsq. rewrite (sumn_ext n _ (fun i => c * c * (f i * f i))) by (intros; ring).
  rewrite sumn_R_mul_l. rewrite sqrt_mult_alt by apply Rle_0_sqr. f_equal. apply sqrt_Rsqr_abs.
Qed.

Lemma cauchy_schwarz_sq n f g : sumn n (fun i => f i * g i) * sumn n (fun i => f i * g i) <= sumsq n f * sumsq n g.
Proof.
  unfold sumsq. set (a := sumn n (fun i => f i * f i)). set (b := sumn n (fun i => f i * g i)). set (c := sumn n (fun i => g i * g i)).
  assert (Hq : forall t, 0 <= a - 2 * t * b + t * t * c).
  { intros t. replace (a - 2 * t * b + t * t * c) with (sumn n (fun i => (f i - t * g i) * (f i - t * g i))).
    - apply sumn_R_nonneg. intros. apply Rle_0_sqr.
    - rewrite (sumn_ext n _ (fun i => f i * f i + (- (2 * t)) * (f i * g i) + (t * t) * (g i * g i))) by (intros; ring).
      rewrite !sumn_R_add, !sumn_R_mul_l. fold a b c. ring. }
  assert (Hc : 0 <= c) by (apply sumn_R_nonneg; intros; apply Rle_0_sqr).
  destruct (Req_dec c 0) as [E|E].
  - assert (Z : forall i, (i < n)%nat -> g i = 0) by (apply sumsq_zero; exact E).
    replace b with 0. { rewrite E. lra. }
    symmetry. apply (sumn_zero_ext R_RingLaws). intros i Hi. rewrite Z by assumption. simpl. ring.
  - pose proof (Hq (b / c)) as H. assert (Hc' : 0 < c) by lra.
    replace (a - 2 * (b / c) * b + b / c * (b / c) * c) with ((a * c - b * b) / c) in H by (field; lra).
    assert (0 <= (a * c - b * b) / c * c) by (apply Rmult_le_pos; lra).
    replace ((a * c - b * b) / c * c) with (a * c - b * b) in H0 by (field; lra). lra.
Qed.

Lemma cauchy_schwarz n f g : Rabs (sumn n (fun i => f i * g i)) <= enorm n f * enorm n g.
Proof.
  unfold enorm. rewrite <- sqrt_mult_alt by apply sumsq_nonneg.
  rewrite <- sqrt_Rsqr_abs. apply sqrt_le_1_alt. unfold Rsqr. apply cauchy_schwarz_sq.
Qed.

Lemma enorm_triangle n f g : enorm n (fun i => f i + g i) <= enorm n f + enorm n g.
Proof.
  pose proof (enorm_nonneg n f). pose proof (enorm_nonneg n g).
  apply Rsqr_incr_0_var; [|lra]. unfold Rsqr. rewrite enorm_sq.
  unfold sumsq. rewrite (sumn_ext n _ (fun i => f i * f i + 2 * (f i * g i) + g i * g i)) by (intros; ring).
  rewrite !sumn_R_add, sumn_R_mul_l. fold (sumsq n f) (sumsq n g). rewrite <- !enorm_sq.
  pose proof (cauchy_schwarz n f g). pose proof (Rle_abs (sumn n (fun i => f i * g i))). nra.
Qed.

Lemma enorm_ext n f g : (forall i, (i < n)%nat -> f i = g i) -> enorm n f = enorm n g.
Proof. intros H. unfold enorm, sumsq. f_equal. apply sumn_ext. intros i Hi. rewrite H by assumption. reflexivity. Qed.

(** Natural exponents p >= 1: the p-th root of the sum of p-th powers, without absolute values. *)
Lemma vp_norm_nat (v : vector R) n f k : (is_col v n f \/ is_row v n f) -> (1 <= k)%nat ->
  vp_norm v (INR k) = Ret (R_pow (sumn n (fun i => f i ^ k)) (1 / INR k)).
Proof.
  intros H Hk. rewrite (vp_norm_gen v n f (INR k) H).
  2:{ apply R_leb_1. change 1 with (INR 1). apply le_INR. assumption. }
  f_equal. change (@tpow R R_pops) with R_pow. rewrite (sumn_ext n _ (fun i => f i ^ k)) by (intros; apply R_pow_nat). reflexivity.
Qed.

Lemma vp_norm_2_ops (v : vector R) n f (H : is_col v n f \/ is_row v n f) : veucl_norm v = Ret (enorm n f).
Proof. exact (vp_norm_2 v n f H). Qed.

End Real.
