(** Boolean comparison of rational matrices, so that closed examples are checked by computation. *)
From Coq Require Import Arith List Bool QArith Qcanon.
From Verif Require Import Outcome Scalar Matrix_model LU_model.
Import ListNotations.

Definition q_same (x y : Qc) : bool := Qc_eq_bool x y.
Lemma q_same_ok x y : q_same x y = true -> x = y.
Proof. apply Qc_eq_bool_correct. Qed.
Lemma q_same_no x y : q_same x y = false -> x <> y.
Proof.
  intros H E. subst y. unfold q_same, Qc_eq_bool in H.
  destruct (Qc_eq_dec x x); [discriminate|contradiction].
Qed.

Fixpoint ql_same (x y : list Qc) : bool :=
  match x, y with
  | [], [] => true
  | a :: x, b :: y => q_same a b && ql_same x y
  | _, _ => false
  end.
Lemma ql_same_ok x : forall y, ql_same x y = true -> x = y.
Proof.
  induction x as [|a x IH]; destruct y as [|b y]; simpl; intros H; try discriminate; [reflexivity|].
  apply andb_prop in H. destruct H as [H1 H2]. apply q_same_ok in H1. rewrite H1, (IH y H2). reflexivity.
Qed.
Lemma ql_same_refl x : ql_same x x = true.
Proof.
  induction x as [|a x IH]; simpl; [reflexivity|]. rewrite IH. unfold q_same, Qc_eq_bool.
  destruct (Qc_eq_dec a a); [reflexivity|contradiction].
Qed.

Definition qm_same (A B : matrix Qc) : bool :=
  (rows A =? rows B)%nat && (cols A =? cols B)%nat && ql_same (data A) (data B).
Lemma qm_same_ok A B : qm_same A B = true -> A = B.
Proof.
  destruct A, B. unfold qm_same. simpl. intros H. apply andb_prop in H. destruct H as [H H3].
  apply andb_prop in H. destruct H as [H1 H2]. apply Nat.eqb_eq in H1, H2. apply ql_same_ok in H3. congruence.
Qed.
Lemma qm_same_refl A : qm_same A A = true.
Proof. unfold qm_same. rewrite !Nat.eqb_refl, ql_same_refl. reflexivity. Qed.
Lemma qm_same_no A B : qm_same A B = false -> A <> B.
Proof. intros H E. subst B. rewrite qm_same_refl in H. discriminate. Qed.

Definition om_same (x y : outcome (matrix Qc)) : bool :=
  match x, y with Ret A, Ret B => qm_same A B | Panic, Panic => true | _, _ => false end.
Lemma om_same_ok x y : om_same x y = true -> x = y.
Proof. destruct x, y; simpl; intros H; try discriminate; [|reflexivity]. f_equal. apply qm_same_ok. assumption. Qed.
Lemma om_same_no x y : om_same x y = false -> x <> y.
Proof. destruct x, y; simpl; intros H; try discriminate. intro E. injection E as ->. rewrite qm_same_refl in H. discriminate. Qed.

Definition orm_same (x y : outcome (result (matrix Qc))) : bool :=
  match x, y with
  | Ret (Ok A), Ret (Ok B) => qm_same A B
  | Ret Err, Ret Err => true
  | Panic, Panic => true | _, _ => false end.
Lemma orm_same_ok x y : orm_same x y = true -> x = y.
Proof.
  destruct x as [[a|]|], y as [[b|]|]; simpl; intros H; try discriminate; try reflexivity.
  apply qm_same_ok in H. congruence.
Qed.

Definition olu_same (x y : outcome (result (ludec Qc))) : bool :=
  match x, y with
  | Ret (Ok A), Ret (Ok B) => qm_same (lu_l A) (lu_l B) && qm_same (lu_u A) (lu_u B) && qm_same (lu_p A) (lu_p B)
  | Ret Err, Ret Err => true
  | Panic, Panic => true | _, _ => false end.
Lemma olu_same_ok x y : olu_same x y = true -> x = y.
Proof.
  destruct x as [[[a1 a2 a3]|]|], y as [[[b1 b2 b3]|]|]; simpl; intros H; try discriminate; try reflexivity.
  apply andb_prop in H. destruct H as [H H3]. apply andb_prop in H. destruct H as [H1 H2].
  apply qm_same_ok in H1, H2, H3. congruence.
Qed.

Definition oq_same (x y : outcome Qc) : bool :=
  match x, y with Ret a, Ret b => q_same a b | Panic, Panic => true | _, _ => false end.
Lemma oq_same_ok x y : oq_same x y = true -> x = y.
Proof. destruct x, y; simpl; intros H; try discriminate; [|reflexivity]. f_equal. apply q_same_ok. assumption. Qed.

Definition ol_same (x y : outcome (list Qc)) : bool :=
  match x, y with Ret a, Ret b => ql_same a b | Panic, Panic => true | _, _ => false end.
Lemma ol_same_ok x y : ol_same x y = true -> x = y.
Proof. destruct x, y; simpl; intros H; try discriminate; [|reflexivity]. f_equal. apply ql_same_ok. assumption. Qed.

(** Close a goal about closed rational matrices by computation. *)
Ltac qcompute :=
  first [ apply om_same_ok; vm_compute; reflexivity
        | apply om_same_no; vm_compute; reflexivity
        | apply orm_same_ok; vm_compute; reflexivity
        | apply olu_same_ok; vm_compute; reflexivity
        | apply ol_same_ok; vm_compute; reflexivity
        | apply oq_same_ok; vm_compute; reflexivity
        | apply qm_same_ok; vm_compute; reflexivity
        | apply qm_same_no; vm_compute; reflexivity
        | apply q_same_ok; vm_compute; reflexivity
        | apply q_same_no; vm_compute; reflexivity ].
