(** Property theorems C25, C26, C28: vectors.  [is_col v m f]: v is an m x 1 vector with
    components f 0 .. f (m-1); [is_row] likewise for 1 x n. *)
From Coq Require Import Arith List Bool Lia Reals QArith Qcanon.
From Verif Require Import Outcome Scalar Matrix_model Transpose_model Vector_model Matrix_spec
  Matrix_proofs Transpose_proofs Vector_proofs Sums Basics_proofs MatProps_proofs VecProps_proofs P_Matrix.
Import ListNotations.
Local Open Scope nat_scope.

(** * C25 *)

Theorem C25_new : forall (T : Type) (n : nat) (l : list T) (d : T),
  (length l = n ->
     (exists v, vnew_column n l = Ret v /\ is_col v n (fun i => nth i l d)) /\
     (exists v, vnew_row n l = Ret v /\ is_row v n (fun i => nth i l d))) /\
  (length l <> n -> vnew_column n l = Panic /\ vnew_row n l = Panic).
Proof.
  intros T n l d. split; intros H; split.
  - apply vnew_column_spec; assumption.
  - apply vnew_row_spec; assumption.
  - apply vnew_column_panic; assumption.
  - apply vnew_row_panic; assumption.
Qed.
Print Assumptions C25_new.
(** The macro: a comma list is a row, a semicolon list a column. *)
Theorem C25_macro : forall (T : Type) (l : list T) (d : T),
  (exists v, vector_macro_row l = Ret v /\ is_row v (length l) (fun i => nth i l d)) /\
  (exists v, vector_macro_column l = Ret v /\ is_col v (length l) (fun i => nth i l d)).
Proof. intros T l d. split; [apply vnew_row_spec|apply vnew_column_spec]; reflexivity. Qed.
Print Assumptions C25_macro.
Theorem C25_scalar : forall (T : Type) (O : Ops T) (v : vector T) n f c,
  (is_col v n f -> is_col (vadd_scalar v c) n (fun i => add (f i) c) /\ is_col (vsub_scalar v c) n (fun i => sub (f i) c)) /\
  (is_row v n f -> is_row (vadd_scalar v c) n (fun i => add (f i) c) /\ is_row (vsub_scalar v c) n (fun i => sub (f i) c)).
Proof. intros T O v n f c. split; intros H; split; exact (mapply_spec _ v _ _ _ H). Qed.
Print Assumptions C25_scalar.

Theorem C25_constants : forall (T : Type) (O : Ops T) (m : nat),
  is_col (vzero m) m (fun _ => zero) /\ exists v, vone m = Ret v /\ is_col v m (fun _ => one).
Proof. intros T O m. split; [apply vzero_spec | apply vone_spec]. Qed.
Print Assumptions C25_constants.

Theorem C25_get : forall (T : Type) (v : vector T) (n : nat) (f : nat -> T) (i : nat),
  is_col v n f \/ is_row v n f -> (i < n -> vvget v i = Ret (f i)) /\ (n <= i -> vvget v i = Panic).
Proof.
  intros T v n f i [H|H]; split; intros Hi.
  - eapply col_get; eassumption.
  - eapply col_get_panic; eassumption.
  - eapply row_get; eassumption.
  - eapply row_get_panic; eassumption.
Qed.
Print Assumptions C25_get.

Theorem C25_set : forall (T : Type) (v : vector T) (n : nat) (f : nat -> T) (i : nat) (x : T),
  (is_col v n f -> i < n ->
     exists w, vvset v i x = Ret w /\ is_col w n (fun k => if k =? i then x else f k)) /\
  (is_row v n f -> i < n ->
     exists w, vvset v i x = Ret w /\ is_row w n (fun k => if k =? i then x else f k)) /\
  (is_col v n f \/ is_row v n f -> n <= i -> vvset v i x = Panic).
Proof.
  intros T v n f i x. split; [|split].
  - intros H Hi. apply col_set; assumption.
  - intros H Hi. apply row_set; assumption.
  - intros [H|H] Hi; [eapply col_set_panic | eapply row_set_panic]; eassumption.
Qed.
Print Assumptions C25_set.

Theorem C25_get_slice : forall (T : Type) (O : Ops T) (v : vector T) n f s e,
  is_col v n f \/ is_row v n f ->
  (s <= e -> e < n -> exists w, vget_slice v s e = Ret w /\ is_col w (e - s + 1) (fun i => f (s + i))) /\
  (n <= s \/ n <= e \/ e < s -> vget_slice v s e = Panic).
Proof.
  intros T O v n f s e H. split.
  - intros Hs He. destruct H as [H|H]; [eapply vget_slice_col | eapply vget_slice_row]; eassumption.
  - intros Hb. apply vget_slice_panic. cbv zeta.
    assert (E : (if rows v =? 1 then cols v else rows v) = n).
    { destruct H as [H|H]; destruct (is_mat_dim _ _ _ _ H) as [R C]; rewrite R, C.
      - destruct (Nat.eqb_spec n 1); auto.
      - reflexivity. }
    rewrite E. tauto.
Qed.
Print Assumptions C25_get_slice.

Theorem C25_set_slice : forall (T : Type) (O : Ops T) (v w : vector T) m f p g s,
  is_col v m f -> is_col w p g ->
  (s + p <= m -> exists u, vset_slice v w s = Ret u /\
     is_col u m (fun i => if (s <=? i) && (i <? s + p) then g (i - s) else f i)) /\
  (m < s + p -> vset_slice v w s = Panic).
Proof.
  intros T O v w m f p g s Hv Hw. split.
  - intros Hs. apply vset_slice_col; assumption.
  - destruct (is_mat_dim _ _ _ _ Hv) as [<- _]. destruct (is_mat_dim _ _ _ _ Hw) as [<- _].
    apply vset_slice_panic.
Qed.
Print Assumptions C25_set_slice.

Theorem C25_transpose : forall (T : Type) (v : vector T) n f, 0 < n ->
  (is_col v n f -> exists w, vtranspose v = Ret w /\ is_row w n f) /\
  (is_row v n f -> exists w, vtranspose v = Ret w /\ is_col w n f).
Proof. intros T v n f Hn. split; intros H; [apply vtranspose_col | apply vtranspose_row]; assumption. Qed.
Print Assumptions C25_transpose.

Example C25_example :
  vvget exv 1 = Ret (qz 7) /\ vvget exr 2 = Ret (qz 5) /\ vvget exr 3 = Panic /\
  vget_slice exr 1 2 = Ret (mkMatrix 2 1 [qz 7; qz 5]).
Proof. repeat split; reflexivity. Qed.

(** * C26 *)

Theorem C26_dotp : forall (T : Type) (O : Ops T) (v w : vector T) m f g,
  0 < m -> is_col v m f -> is_col w m g -> vdotp v w = Ret (sumn m (fun i => mul (f i) (g i))).
Proof. exact @vdotp_spec. Qed.
Print Assumptions C26_dotp.

Theorem C26_dotp_panics : forall (T : Type) (O : Ops T) (v w : vector T),
  rows v = 0 \/ cols v <> 1 \/ dim v <> dim w -> vdotp v w = Panic.
Proof. exact @vdotp_panic. Qed.
Print Assumptions C26_dotp_panics.

(** Symmetric and bilinear over a ring. *)
Theorem C26_dotp_bilinear : forall (T : Type) (O : Ops T), RingLaws O ->
  forall (u v w : vector T) m f g h c, 0 < m -> is_col u m f -> is_col v m g -> is_col w m h ->
  exists s d1 d2, vadd u v = Ret s /\ vdotp u w = Ret d1 /\ vdotp v w = Ret d2 /\
    vdotp w u = Ret d1 /\ vdotp s w = Ret (add d1 d2) /\ vdotp (vmul_scalar u c) w = Ret (mul c d1).
Proof. exact @dotp_laws. Qed.
Print Assumptions C26_dotp_bilinear.

Theorem C26_dotp_positive : forall (v : vector R) m f, 0 < m -> is_col v m f ->
  exists d, vdotp v v = Ret d /\ (0 <= d)%R /\ (d = 0%R <-> forall i, i < m -> f i = 0%R).
Proof. exact dotp_pos. Qed.
Print Assumptions C26_dotp_positive.

Theorem C26_dyadp : forall (T : Type) (O : Ops T) (v w : vector T) m n f g,
  is_col v m f -> is_col w n g ->
  exists C, vdyadp v w = Ret C /\ is_mat C m n (fun i j => mul (f i) (g j)).
Proof. exact @vdyadp_spec. Qed.
Print Assumptions C26_dyadp.

(** dyadp does not panic on a row vector as second operand: it uses the first component only. *)
Theorem C26_dyadp_row : forall (T : Type) (O : Ops T) (v w : vector T) m n f g,
  is_col v m f -> is_row w n g -> 0 < n ->
  exists C, vdyadp v w = Ret C /\ is_mat C m 1 (fun i _ => mul (f i) (g 0)).
Proof. exact @vdyadp_row. Qed.
Print Assumptions C26_dyadp_row.

Example C26_example :
  vdotp exv exv = Ret (qz 78) /\ vdotp exr exr = Panic /\
  vdyadp exv exv = Ret (mkMatrix 3 3 [qz 4; qz 14; qz 10; qz 14; qz 49; qz 35; qz 10; qz 35; qz 25]).
Proof. repeat split; reflexivity. Qed.

(** * C28 *)

Theorem C28_argmax : forall (T : Type) (O : Ops T), OrdLaws O ->
  forall (v : vector T) n f, 0 < n -> is_col v n f \/ is_row v n f ->
  exists k, vargmax v = Ret k /\ k < n /\
    (forall i, i < n -> ltb (f k) (f i) = false) /\ (forall i, i < k -> ltb (f i) (f k) = true).
Proof.
  intros T O L v n f Hn [H|H]; apply (argmax_gen L v n f Hn).
  - intros i Hi. eapply col_get; eassumption.
  - eapply max_dim_col; eassumption.
  - intros i Hi. eapply row_get; eassumption.
  - eapply max_dim_row; eassumption.
Qed.
Print Assumptions C28_argmax.

Theorem C28_argmin : forall (T : Type) (O : Ops T), OrdLaws O ->
  forall (v : vector T) n f, 0 < n -> is_col v n f \/ is_row v n f ->
  exists k, vargmin v = Ret k /\ k < n /\
    (forall i, i < n -> ltb (f i) (f k) = false) /\ (forall i, i < k -> ltb (f k) (f i) = true).
Proof.
  intros T O L v n f Hn [H|H]; apply (argmin_gen L v n f Hn).
  - intros i Hi. eapply col_get; eassumption.
  - eapply max_dim_col; eassumption.
  - intros i Hi. eapply row_get; eassumption.
  - eapply max_dim_row; eassumption.
Qed.
Print Assumptions C28_argmin.

Example C28_example : OrdLaws Qc_ops /\ vargmax exv = Ret 1 /\ vargmin exr = Ret 0.
Proof. split; [exact Qc_OrdLaws|]. split; reflexivity. Qed.
