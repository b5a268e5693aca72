(** Further vector lemmas used by P_Vector.v. *)
From Coq Require Import Arith List Bool Lia Reals Lra.
From Verif Require Import Outcome Scalar Matrix_model Transpose_model Vector_model Matrix_spec
  Matrix_proofs Transpose_proofs Vector_proofs Sums MatProps_proofs.
Import ListNotations.
Local Open Scope nat_scope.

Section S.
Context {T : Type} {O : Ops T}.

Lemma vget_slice_panic (v : vector T) s e :
  e < s \/ (let l := if rows v =? 1 then cols v else rows v in l <= s \/ l <= e) ->
  vget_slice v s e = Panic.
Proof.
  cbv zeta. intros H. unfold vget_slice. destruct (rows v =? 1) eqn:E1.
  - destruct (Nat.ltb_spec s (cols v)); [|reflexivity]. destruct (Nat.ltb_spec e (cols v)); [|reflexivity].
    cbn [rassert bind]. unfold usub. destruct H as [H|[H|H]]; try lia.
    destruct (Nat.leb_spec s e); [lia|]. reflexivity.
  - destruct (Nat.ltb_spec s (rows v)); [|reflexivity]. destruct (Nat.ltb_spec e (rows v)); [|reflexivity].
    cbn [rassert bind]. unfold usub. destruct H as [H|[H|H]]; try lia.
    destruct (Nat.leb_spec s e); [lia|]. reflexivity.
Qed.

Lemma vset_slice_panic (v w : vector T) s : rows v < s + rows w -> vset_slice v w s = Panic.
Proof.
  intros H. unfold vset_slice. destruct (Nat.leb_spec (s + rows w) (rows v)); [lia|]. reflexivity.
Qed.

(** dyadp looks at row counts only: a row vector operand contributes its first component. *)
Lemma vdyadp_row (v w : vector T) m n f g : is_col v m f -> is_row w n g -> 0 < n ->
  exists C, vdyadp v w = Ret C /\ is_mat C m 1 (fun i _ => mul (f i) (g 0)).
Proof.
  intros Hv Hw Hn. pose proof (is_mat_rows _ _ _ _ Hv) as R. pose proof (is_mat_rows _ _ _ _ Hw) as Rw.
  unfold vdyadp. rewrite R, Rw.
  destruct (full_loop_spec (mzero m 1) m 1 (fun _ _ => zero) (fun i j => mul (f i) (g j)) (fun i j c =>
    let! x := vvget v i in let! y := vvget w j in mset c i j (mul x y)) (mzero_spec m 1)) as (C & E & HC).
  - intros i j c Hi Hj Hc. rewrite (col_get v m f i Hv Hi), (row_get w n g j Hw) by lia. reflexivity.
  - exists C. split; [exact E|]. eapply is_mat_ext; [|exact HC].
    intros i j Hi Hj. cbv beta. assert (j = 0) by lia. subst j. reflexivity.
Qed.
End S.

Lemma sumn_R_nonneg (n : nat) (f : nat -> R) : (forall i, i < n -> (0 <= f i)%R) -> (0 <= sumn n f)%R.
Proof.
  induction n; intros H; simpl; [apply Rle_refl|]. apply Rplus_le_le_0_compat; [apply IHn|]; auto.
Qed.

Lemma sumn_R_zero (n : nat) (f : nat -> R) :
  (forall i, i < n -> (0 <= f i)%R) -> sumn n f = 0%R -> forall i, i < n -> f i = 0%R.
Proof.
  induction n; intros H E i Hi; [lia|]. simpl in E. change (sumn n f + f n = 0)%R in E.
  pose proof (sumn_R_nonneg n f (fun i Hi => H i (Nat.lt_lt_succ_r _ _ Hi))).
  pose proof (H n (Nat.lt_succ_diag_r n)).
  destruct (Nat.eq_dec i n) as [->|]; [lra|]. apply IHn; auto; try lra; lia.
Qed.

Lemma dotp_pos (v : vector R) m f : 0 < m -> is_col v m f ->
  exists d, vdotp v v = Ret d /\ (0 <= d)%R /\ (d = 0%R <-> forall i, i < m -> f i = 0%R).
Proof.
  intros Hm H. eexists. split; [apply (vdotp_spec v v m f f Hm H H)|].
  assert (P : forall i, i < m -> (0 <= mul (f i) (f i))%R) by (intros; apply Rle_0_sqr).
  split; [apply sumn_R_nonneg; exact P|]. split.
  - intros E i Hi. pose proof (sumn_R_zero m _ P E i Hi) as Z. apply Rsqr_0_uniq. exact Z.
  - intros Z. apply (sumn_zero_ext R_RingLaws). intros i Hi. rewrite Z by assumption. apply Rmult_0_l.
Qed.
