(** Finite sums [sumn] under ring laws, and matrix algebra on entry functions. *)
From Coq Require Import Arith List Bool Lia Ring_theory Ring.
From Verif Require Import Outcome Scalar Matrix_model Vector_model Matrix_spec.
Local Open Scope nat_scope.

Lemma sumn_ext {T} {O : Ops T} n (f g : nat -> T) :
  (forall i, i < n -> f i = g i) -> sumn n f = sumn n g.
Proof.
  induction n as [|n IH]; intros H; simpl; [reflexivity|].
  rewrite IH by (intros; apply H; lia). rewrite H by lia. reflexivity.
Qed.

Section Laws.
Context {T : Type} {O : Ops T} (L : RingLaws O).
Add Ring TR : (rl_ring O L).
Local Open Scope sc_scope.

Lemma sumn_zero n : sumn n (fun _ => 0) = 0.
Proof. induction n as [|n IH]; simpl; [reflexivity|]. rewrite IH. ring. Qed.

Lemma sumn_zero_ext n f : (forall i, (i < n)%nat -> f i = 0) -> sumn n f = 0.
Proof. intros H. rewrite (sumn_ext n f (fun _ => 0)) by assumption. apply sumn_zero. Qed.

Lemma sumn_add n f g : sumn n (fun i => f i + g i) = sumn n f + sumn n g.
Proof. induction n as [|n IH]; simpl; [ring|]. rewrite IH. ring. Qed.

Lemma sumn_sub n f g : sumn n (fun i => f i - g i) = sumn n f - sumn n g.
Proof. induction n as [|n IH]; simpl; [ring|]. rewrite IH. ring. Qed.

Lemma sumn_neg n f : sumn n (fun i => - f i) = - sumn n f.
Proof. induction n as [|n IH]; simpl; [ring|]. rewrite IH. ring. Qed.

Lemma sumn_mul_l n c f : sumn n (fun i => c * f i) = c * sumn n f.
Proof. induction n as [|n IH]; simpl; [ring|]. rewrite IH. ring. Qed.

Lemma sumn_mul_r n c f : sumn n (fun i => f i * c) = sumn n f * c.
Proof. induction n as [|n IH]; simpl; [ring|]. rewrite IH. ring. Qed.

Lemma sumn_swap m n (f : nat -> nat -> T) :
  sumn m (fun i => sumn n (fun j => f i j)) = sumn n (fun j => sumn m (fun i => f i j)).
Proof.
  induction m as [|m IH]; simpl.
  - symmetry. apply sumn_zero.
  - rewrite IH. symmetry. apply sumn_add.
Qed.

Lemma sumn_split n m f : sumn (n + m)%nat f = sumn n f + sumn m (fun i => f (n + i)%nat).
Proof.
  induction m as [|m IH].
  - rewrite Nat.add_0_r. simpl. ring.
  - rewrite Nat.add_succ_r. simpl. rewrite IH. ring.
Qed.

Lemma sumn_first n f : sumn (S n) f = f 0%nat + sumn n (fun i => f (S i)).
Proof. change (S n) with (1 + n)%nat. rewrite sumn_split. simpl. ring. Qed.

(** A sum with a single non-zero term. *)
Lemma sumn_single n k f : (k < n)%nat -> (forall i, (i < n)%nat -> i <> k -> f i = 0) -> sumn n f = f k.
Proof.
  revert k. induction n as [|n IH]; intros k Hk H; [lia|]. simpl.
  destruct (Nat.eq_dec k n).
  - subst. rewrite sumn_zero_ext; [ring|]. intros i Hi. apply H; lia.
  - rewrite (IH k) by (try lia; intros; apply H; lia). rewrite (H n) by lia. ring.
Qed.

Lemma sumn_delta_l n k f : (k < n)%nat -> sumn n (fun i => delta k i * f i) = f k.
Proof.
  intros Hk. rewrite (sumn_single n k); auto.
  - unfold delta. rewrite Nat.eqb_refl. ring.
  - intros i Hi Hne. unfold delta. apply Nat.neq_sym in Hne. apply Nat.eqb_neq in Hne. rewrite Hne. ring.
Qed.

Lemma sumn_delta_r n k f : (k < n)%nat -> sumn n (fun i => f i * delta i k) = f k.
Proof.
  intros Hk. rewrite (sumn_single n k); auto.
  - unfold delta. rewrite Nat.eqb_refl. ring.
  - intros i Hi Hne. unfold delta. apply Nat.eqb_neq in Hne. rewrite Hne. ring.
Qed.

(** Truncation: terms beyond [k] vanish. *)
Lemma sumn_trunc k n f : (k <= n)%nat -> (forall i, (k <= i < n)%nat -> f i = 0) -> sumn n f = sumn k f.
Proof.
  intros Hk H. replace n with (k + (n - k))%nat by lia. rewrite sumn_split.
  rewrite (sumn_zero_ext (n - k)); [ring|]. intros i Hi. apply H. lia.
Qed.

(** Matrix product on entry functions. *)
Lemma mulf_assoc k l f g h i j :
  mulf l (mulf k f g) h i j = mulf k f (mulf l g h) i j.
Proof.
  unfold mulf.
  rewrite (sumn_ext l _ (fun b => sumn k (fun a => f i a * g a b * h b j))).
  2: { intros b _. rewrite <- sumn_mul_r. reflexivity. }
  rewrite sumn_swap. apply sumn_ext. intros a _. rewrite <- sumn_mul_l. apply sumn_ext. intros; ring.
Qed.

Lemma mulf_ext k f f' g g' i j :
  (forall a, (a < k)%nat -> f i a = f' i a) -> (forall a, (a < k)%nat -> g a j = g' a j) ->
  mulf k f g i j = mulf k f' g' i j.
Proof. intros Hf Hg. apply sumn_ext. intros a Ha. rewrite Hf, Hg by assumption. reflexivity. Qed.

Lemma mulf_id_l n f i j : (i < n)%nat -> mulf n delta f i j = f i j.
Proof. intros. unfold mulf. apply (sumn_delta_l n i (fun k => f k j)). assumption. Qed.

Lemma mulf_id_r n f i j : (j < n)%nat -> mulf n f delta i j = f i j.
Proof. intros. unfold mulf. apply (sumn_delta_r n j (fun k => f i k)). assumption. Qed.

Lemma mulf_add_r k f g h i j :
  mulf k f (fun a b => g a b + h a b) i j = mulf k f g i j + mulf k f h i j.
Proof. unfold mulf. rewrite <- sumn_add. apply sumn_ext. intros; ring. Qed.

Lemma mulf_add_l k f g h i j :
  mulf k (fun a b => f a b + g a b) h i j = mulf k f h i j + mulf k g h i j.
Proof. unfold mulf. rewrite <- sumn_add. apply sumn_ext. intros; ring. Qed.

Lemma mulf_transpose k f g i j :
  mulf k f g j i = mulf k (fun a b => g b a) (fun a b => f b a) i j.
Proof. unfold mulf. apply sumn_ext. intros; ring. Qed.

Lemma trace_mulf n m f g :
  sumn n (fun i => mulf m f g i i) = sumn m (fun i => mulf n g f i i).
Proof.
  unfold mulf. rewrite sumn_swap. apply sumn_ext. intros a _. apply sumn_ext. intros; ring.
Qed.

End Laws.
