(** A small calculus of remainders O(h^n), uniform over a set of situations. *)
From Coq Require Import Arith Lia List Bool Reals Lra.
From Verif Require Import Outcome Scalar RealOps Matrix_model Matrix_spec Sums OdeConseq_proofs.
Local Open Scope R_scope.

Section BigO.
(** Situations, the admissible ones, and the step width of each. *)
Context {X : Type} (D : X -> Prop) (hh : X -> R).
Context (Hh : forall x, D x -> 0 < hh x <= 1).

Definition bigO (n : nat) (E : X -> R) : Prop := exists C, 0 <= C /\ forall x, D x -> Rabs (E x) <= C * hh x ^ n.

Lemma O_ext n E E' : (forall x, D x -> E x = E' x) -> bigO n E -> bigO n E'.
Proof. intros H (C & HC & B). exists C. split; [exact HC|]. intros x Dx. rewrite <- H by exact Dx. auto. Qed.
Lemma O_zero n : bigO n (fun _ => 0).
Proof. exists 0. split; [lra|]. intros x _. rewrite Rabs_R0. lra. Qed.
Lemma O_add n E F : bigO n E -> bigO n F -> bigO n (fun x => E x + F x).
Proof.
  intros (C & HC & B) (C' & HC' & B'). exists (C + C'). split; [lra|]. intros x Dx.
  eapply Rle_trans; [apply Rabs_triang|]. specialize (B x Dx). specialize (B' x Dx). lra.
Qed.
Lemma O_scal n c E : bigO n E -> bigO n (fun x => c * E x).
Proof.
  intros (C & HC & B). exists (Rabs c * C). split; [apply Rmult_le_pos; [apply Rabs_pos|exact HC]|]. intros x Dx.
  rewrite Rabs_mult, Rmult_assoc. apply Rmult_le_compat_l; [apply Rabs_pos|auto].
Qed.
Lemma O_opp n E : bigO n E -> bigO n (fun x => - E x).
Proof. intros H. apply (O_ext n (fun x => -1 * E x)); [intros; ring|]. now apply O_scal. Qed.
Lemma O_sub n E F : bigO n E -> bigO n F -> bigO n (fun x => E x - F x).
Proof. intros H H'. apply O_add; [exact H|now apply O_opp]. Qed.
Lemma O_mul n k E F : bigO n E -> bigO k F -> bigO (n + k) (fun x => E x * F x).
Proof.
  intros (C & HC & B) (C' & HC' & B'). exists (C * C'). split; [now apply Rmult_le_pos|]. intros x Dx.
  rewrite Rabs_mult, pow_add. replace (C * C' * (hh x ^ n * hh x ^ k)) with ((C * hh x ^ n) * (C' * hh x ^ k)) by ring.
  apply Rmult_le_compat; try apply Rabs_pos; auto.
Qed.
Lemma O_h : bigO 1 hh.
Proof. exists 1. split; [lra|]. intros x Dx. destruct (Hh x Dx). rewrite Rabs_pos_eq by lra. lra. Qed.
Lemma O_mulh n E : bigO n E -> bigO (S n) (fun x => hh x * E x).
Proof. intros H. exact (O_mul 1 n _ _ O_h H). Qed.
Lemma O_weak n k E : (k <= n)%nat -> bigO n E -> bigO k E.
Proof.
  intros Hk (C & HC & B). exists C. split; [exact HC|]. intros x Dx. eapply Rle_trans; [apply B; exact Dx|].
  apply Rmult_le_compat_l; [exact HC|]. destruct (Hh x Dx) as [H0 H1]. replace n with (k + (n - k))%nat by lia. rewrite pow_add.
  rewrite <- (Rmult_1_r (hh x ^ k)) at 2. apply Rmult_le_compat_l; [apply pow_le; lra|].
  rewrite <- (pow1 (n - k)). apply pow_incr. lra.
Qed.
Lemma O_bound n k E F : bigO 0 E -> bigO n F -> (k <= n)%nat -> bigO k (fun x => E x * F x).
Proof. intros H H' Hk. apply (O_weak n k _ Hk). exact (O_mul 0 n _ _ H H'). Qed.
Lemma O_sum n k E : (forall l, (l < k)%nat -> bigO n (E l)) -> bigO n (fun x => sumn k (fun l => E l x)).
Proof.
  induction k as [|k IH]; intros H.
  - apply O_zero.
  - apply (O_ext n (fun x => sumn k (fun l => E l x) + E k x)); [reflexivity|].
    apply O_add; [apply IH; intros; apply H; lia|apply H; lia].
Qed.
(** Finitely many remainders have a common constant. *)
Lemma O_unif n m E : (forall i, (i < m)%nat -> bigO n (E i)) ->
  exists C, 0 <= C /\ forall x, D x -> forall i, (i < m)%nat -> Rabs (E i x) <= C * hh x ^ n.
Proof.
  induction m as [|m IH]; intros H.
  - exists 0. split; [lra|]. intros; lia.
  - destruct IH as (C & HC & B); [intros; apply H; lia|]. destruct (H m) as (C' & HC' & B'); [lia|].
    exists (C + C'). split; [lra|]. intros x Dx i Hi. destruct (Hh x Dx) as [H0 _].
    assert (P : 0 <= hh x ^ n) by (apply pow_le; lra).
    destruct (Nat.eq_dec i m) as [->|Ne].
    + specialize (B' x Dx). nra.
    + specialize (B x Dx i ltac:(lia)). nra.
Qed.
Lemma O_const n E C : (forall x, D x -> Rabs (E x) <= C * hh x ^ n) -> bigO n E.
Proof.
  intros H. exists (Rabs C). split; [apply Rabs_pos|]. intros x Dx. eapply Rle_trans; [apply H; exact Dx|].
  apply Rmult_le_compat_r; [destruct (Hh x Dx); apply pow_le; lra|apply RRle_abs].
Qed.
End BigO.
