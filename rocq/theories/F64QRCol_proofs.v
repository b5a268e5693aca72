(** The columns of a matrix are as orthonormal as its rows. *)
From Coq Require Import Arith Lia List Bool ZArith Reals Lra Psatz.
From Verif Require Import Scalar RealOps Matrix_spec F64_spec F64Err_proofs F64Lin_proofs F64Det_proofs.
Local Open Scope R_scope.
Local Notation rsum := (@sumn R R_ops).

Definition row_defect (m : nat) (q : nat -> nat -> R) (x y : nat) : R := rsum m (fun l => q x l * q y l) - (if (x =? y)%nat then 1 else 0).
Lemma sq_sum n f : rsum n f * rsum n f = rsum n (fun l => rsum n (fun k => f l * f k)).
Proof. transitivity (rsum n (fun l => f l * rsum n f)); [symmetry; rewrite (rsum_eq n (fun l => f l * rsum n f) (fun l => rsum n f * f l)) by (intros; ring); apply rsum_scal|]. apply rsum_eq. intros l Hl. now rewrite <- rsum_scal. Qed.
(** The sum of the squared scalar products of the rows, as a sum over four indices. *)
Lemma gram_sq m q : rsum m (fun x => rsum m (fun y => rsum m (fun l => q x l * q y l) * rsum m (fun l => q x l * q y l))) =
  rsum m (fun l => rsum m (fun k => rsum m (fun x => q x l * q x k) * rsum m (fun x => q x l * q x k))).
Proof.
  transitivity (rsum m (fun x => rsum m (fun y => rsum m (fun l => rsum m (fun k => (q x l * q x k) * (q y l * q y k)))))).
  { apply rsum_eq; intros x Hx. apply rsum_eq; intros y Hy. rewrite sq_sum. apply rsum_eq; intros l Hl. apply rsum_eq; intros k Hk. ring. }
  transitivity (rsum m (fun x => rsum m (fun l => rsum m (fun k => (q x l * q x k) * rsum m (fun y => q y l * q y k))))).
  { apply rsum_eq; intros x Hx. rewrite (rsum_swap m m). apply rsum_eq; intros l Hl. rewrite (rsum_swap m m). apply rsum_eq; intros k Hk. now rewrite <- rsum_scal. }
  rewrite (rsum_swap m m). apply rsum_eq; intros l Hl. rewrite (rsum_swap m m). apply rsum_eq; intros k Hk.
  rewrite <- rsum_scal. apply rsum_eq; intros x Hx. ring.
Qed.
Lemma defect_sq m q : rsum m (fun x => rsum m (fun y => row_defect m q x y ^ 2)) =
  rsum m (fun x => rsum m (fun y => rsum m (fun l => q x l * q y l) * rsum m (fun l => q x l * q y l))) + (-2) * rsum m (fun x => rsum m (fun l => q x l * q x l)) + INR m.
Proof.
  transitivity (rsum m (fun x => rsum m (fun y => rsum m (fun l => q x l * q y l) * rsum m (fun l => q x l * q y l)) + (-2) * rsum m (fun l => q x l * q x l) + 1)).
  - apply rsum_eq; intros x Hx. transitivity (rsum m (fun y => rsum m (fun l => q x l * q y l) * rsum m (fun l => q x l * q y l) + (if (x =? y)%nat then 1 else 0) * (-2 * rsum m (fun l => q x l * q y l) + 1))).
    + apply rsum_eq; intros y Hy. unfold row_defect. destruct (x =? y)%nat; ring.
    + rewrite rsum_plus. rewrite (rsum_delta m x (fun y => -2 * rsum m (fun l => q x l * q y l) + 1)) by exact Hx. ring.
  - rewrite !rsum_plus, rsum_scal. f_equal. clear. induction m as [|m IH]; [reflexivity|]. rewrite rsum_S, S_INR, IH. reflexivity.
Qed.
(** The Frobenius norms of Q Q^T - I and Q^T Q - I are equal. *)
Theorem frob_swap m q : rsum m (fun x => rsum m (fun y => row_defect m q x y ^ 2)) = rsum m (fun x => rsum m (fun y => row_defect m (fun i j => q j i) x y ^ 2)).
Proof. rewrite !defect_sq, gram_sq. f_equal. f_equal. f_equal. apply (rsum_swap m m (fun x l => q x l * q x l)). Qed.
Lemma entry_le m (f : nat -> nat -> R) x y : (x < m)%nat -> (y < m)%nat -> f x y ^ 2 <= rsum m (fun x => rsum m (fun y => f x y ^ 2)).
Proof.
  assert (K : forall n (g : nat -> R) i, (i < n)%nat -> (forall j, (j < n)%nat -> 0 <= g j) -> g i <= rsum n g).
  { induction n as [|n IH]; intros g i Hi Hg; [lia|]. rewrite rsum_S. destruct (Nat.eq_dec i n) as [->|N].
    - assert (0 <= rsum n g) by (apply rsum_pos; intros; apply Hg; lia). lra.
    - assert (g i <= rsum n g) by (apply IH; [lia|intros; apply Hg; lia]). specialize (Hg n ltac:(lia)). lra. }
  intros Hx Hy. eapply Rle_trans; [apply (K m (fun y => f x y ^ 2) y Hy); intros; apply pow2_ge_0|]. apply (K m (fun x => rsum m (fun y => f x y ^ 2)) x Hx). intros. apply rsum_pos. intros. apply pow2_ge_0.
Qed.
Lemma rsum_const n c : rsum n (fun _ => c) = INR n * c.
Proof. induction n as [|n IH]; [cbn; ring|]. rewrite rsum_S, S_INR, IH. ring. Qed.
Theorem columns_orthonormal m q g : 0 <= g -> (forall x y, (x < m)%nat -> (y < m)%nat -> Rabs (row_defect m q x y) <= g) ->
  forall x y, (x < m)%nat -> (y < m)%nat -> Rabs (rsum m (fun l => q l x * q l y) - (if (x =? y)%nat then 1 else 0)) <= INR m * g.
Proof.
  intros G H x y Hx Hy. set (d := row_defect m (fun i j => q j i)). change (Rabs (d x y) <= INR m * g).
  assert (S : d x y ^ 2 <= (INR m * g) ^ 2).
  { eapply Rle_trans; [apply (entry_le m d x y Hx Hy)|]. unfold d. rewrite <- frob_swap. apply Rle_trans with (rsum m (fun x => rsum m (fun y => g ^ 2))).
    - apply rsum_le; intros i Hi. apply rsum_le; intros j Hj. rewrite <- (pow2_abs (row_defect m q i j)). apply pow_incr. split; [apply Rabs_pos|now apply H].
    - rewrite !rsum_const. right. ring. }
  assert (P : 0 <= INR m * g) by (apply Rmult_le_pos; [apply pos_INR|exact G]). rewrite <- (pow2_abs (d x y)) in S. pose proof (Rabs_pos (d x y)). nra.
Qed.
(** Then R = Q^T A holds whenever Q R = A does. *)
Theorem transposed_product m n q r a g W : 0 <= g <= / 100 -> (forall x y, (x < m)%nat -> (y < m)%nat -> Rabs (row_defect m q x y) <= g) ->
  (forall x y, (x < m)%nat -> (y < n)%nat -> Rabs (rsum m (fun l => q x l * r l y) - a x y) <= g * W y) ->
  forall x y, (x < m)%nat -> (y < n)%nat -> Rabs (rsum m (fun l => q l x * a l y) - r x y) <= INR m * g * rsum m (fun k => Rabs (r k y)) + INR m * (11 / 10 * (g * W y)).
Proof.
  intros G H HA x y Hx Hy. set (e := fun l => rsum m (fun k => q l k * r k y) - a l y). set (F := fun k => rsum m (fun l => q l x * q l k) - (if (x =? k)%nat then 1 else 0)).
  assert (Q1 : forall l, (l < m)%nat -> Rabs (q l x) <= 11 / 10).
  { intros l Hl. pose proof (H l l Hl Hl) as D. unfold row_defect in D. rewrite Nat.eqb_refl in D.
    assert (S : q l x * q l x <= rsum m (fun k => q l k * q l k)). { destruct (Nat.eq_dec m 0) as [->|N0]; [lia|]. clear - Hx. induction m as [|m' IH]; [lia|]. rewrite rsum_S. destruct (Nat.eq_dec x m') as [->|N].
      - assert (0 <= rsum m' (fun k => q l k * q l k)) by (apply rsum_pos; intros; apply Rle_0_sqr). lra.
      - specialize (IH ltac:(lia)). pose proof (Rle_0_sqr (q l m')). unfold Rsqr in *. lra. }
    apply Rabs_le. revert D. unfold Rabs. destruct Rcase_abs; intros; split; nra. }
  assert (I : rsum m (fun l => q l x * a l y) - r x y = rsum m (fun k => F k * r k y) - rsum m (fun l => q l x * e l)).
  { assert (I1 : rsum m (fun l => q l x * rsum m (fun k => q l k * r k y)) = rsum m (fun k => F k * r k y) + r x y).
    { transitivity (rsum m (fun k => rsum m (fun l => q l x * q l k) * r k y)).
      - transitivity (rsum m (fun l => rsum m (fun k => q l x * (q l k * r k y)))); [apply rsum_eq; intros; now rewrite rsum_scal|]. rewrite (rsum_swap m m). apply rsum_eq; intros k Hk.
        rewrite (rsum_eq m (fun i => q i x * (q i k * r k y)) (fun i => r k y * (q i x * q i k))) by (intros; ring). rewrite rsum_scal. ring.
      - rewrite <- (rsum_delta m x (fun k => r k y) Hx), <- rsum_plus. apply rsum_eq; intros k Hk. unfold F. ring. }
    assert (I2 : rsum m (fun l => q l x * rsum m (fun k => q l k * r k y)) = rsum m (fun l => q l x * a l y) + rsum m (fun l => q l x * e l)) by (rewrite <- rsum_plus; apply rsum_eq; intros; unfold e; ring). lra. }
  rewrite I. unfold Rminus. eapply Rle_trans; [apply Rabs_triang|]. rewrite Rabs_Ropp. apply Rplus_le_compat.
  - eapply Rle_trans; [apply rsum_abs|]. rewrite <- rsum_scal. apply rsum_le; intros k Hk. rewrite Rabs_mult. apply Rmult_le_compat_r; [apply Rabs_pos|]. apply columns_orthonormal; [lra|exact H|exact Hx|exact Hk].
  - eapply Rle_trans; [apply rsum_abs|]. rewrite <- rsum_const. apply rsum_le; intros l Hl. rewrite Rabs_mult. apply Rmult_le_compat; [apply Rabs_pos|apply Rabs_pos|now apply Q1|now apply HA].
Qed.
