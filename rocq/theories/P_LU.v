(** Property theorems C13-C18: LU decomposition, triangular substitution, solve, inverse.

    Reading guide.  [is_mat A m n f]: A is an m x n matrix with entries [f i j].  [is_col v n b]: v
    is a column vector of length n with components [b i].  [mulf n f g] is the entry function of
    the product of two matrices with inner dimension n.  [unit_lower], [upper], [lower],
    [perm_on], [perm_fun] are defined in LU_spec.v.  A theorem with hypothesis [FieldLaws O] is
    about exact arithmetic; one without is about every element type, f64 included. *)
From Coq Require Import Arith List Bool Lia QArith Qcanon Reals Lra.
From Verif Require Import Outcome Scalar Matrix_model Transpose_model Vector_model LU_model Matrix_spec LU_spec
  Matrix_proofs Vector_proofs LU_proofs Subst_proofs LUProps_proofs QcCompute.
Import ListNotations.
Local Open Scope nat_scope.

(** Example data. *)
Definition exLU : matrix Qc := mkMatrix 3 3 [qz 1; qz 2; qz 4; qz 3; qz 1; qz 2; qz 0; qz 5; qz 1].
Definition entLU (i j : nat) : Qc := nth (j * 3 + i) (data exLU) (qz 0).
Example exLU_mat : is_mat exLU 3 3 entLU.
Proof. apply is_mat_intro; auto. intros i j Hi Hj. apply vget_ok. simpl length. lia. Qed.
Definition exb : vector Qc := mkMatrix 3 1 [qz 2; qz 7; qz 5].
Definition entb (i : nat) : Qc := nth i (data exb) (qz 0).
Example exb_col : is_col exb 3 entb.
Proof.
  apply is_mat_intro; auto. intros i j Hi Hj. assert (j = 0) by lia. subst j. apply vget_ok. simpl length. lia.
Qed.

(** * C13 *)

(** Every square matrix, over any element type: dec_lu returns Ok with factors of the right shape. *)
Theorem C13_shape : forall (T : Type) (O : Ops T) (A : matrix T) n f, is_mat A n n f ->
  exists d l u s, dec_lu A = Ret (Ok d) /\
    is_mat (lu_l d) n n l /\ unit_lower n l /\
    is_mat (lu_u d) n n u /\ upper n n u /\
    is_mat (lu_p d) n n (perm_fun s) /\ perm_on n s.
Proof. intros. eapply dec_lu_shape; eauto. Qed.
Print Assumptions C13_shape.

Theorem C13_nonsquare_panics : forall (T : Type) (O : Ops T) (A : matrix T),
  rows A <> cols A -> dec_lu A = Panic.
Proof. intros. apply dec_lu_nonsquare. assumption. Qed.
Print Assumptions C13_nonsquare_panics.

Theorem C13_never_err : forall (T : Type) (O : Ops T) (A : matrix T), dec_lu A <> Ret Err.
Proof. intros. apply dec_lu_never_err. Qed.
Print Assumptions C13_never_err.

(** The shape theorem applies to f64 with a NaN entry. *)
Example C13_example_nan :
  let A := mkMatrix 2 2 [SpecFloat.S754_nan; one; one; zero] in
  exists f, is_mat (A : matrix f64) 2 2 f.
Proof.
  simpl. exists (fun i j => nth (j * 2 + i) [SpecFloat.S754_nan; one; one; zero] zero).
  apply is_mat_intro; auto. intros i j Hi Hj. apply vget_ok. simpl length. lia.
Qed.
Definition exLU_dec : ludec Qc := mkLU
  (mkMatrix 3 3 [qz 1; qf 1 4; qf 1 2; qz 0; qz 1; qz 0; qz 0; qz 0; qz 1])
  (mkMatrix 3 3 [qz 4; qz 0; qz 0; qz 2; qf 5 2; qz 0; qz 1; qf (-1) 4; qf 9 2])
  (mkMatrix 3 3 [qz 0; qz 1; qz 0; qz 0; qz 0; qz 1; qz 1; qz 0; qz 0]).
Example C13_example : dec_lu exLU = Ret (Ok exLU_dec).
Proof. qcompute. Qed.

(** * C14 *)

(** Unconditionally P*A = L*U + E, where E repeats the column of L below every zero pivot. *)
Theorem C14_identity_with_error : forall (T : Type) (O : Ops T), FieldLaws O ->
  forall (A : matrix T) n f, is_mat A n n f ->
  exists d l u s, dec_lu A = Ret (Ok d) /\
    is_mat (lu_l d) n n l /\ is_mat (lu_u d) n n u /\ is_mat (lu_p d) n n (perm_fun s) /\ perm_on n s /\
    forall r c, r < n -> c < n ->
      f (s r) c = add (mulf n l u r c) (if (c <? r) && eqb (u c c) zero then l r c else zero).
Proof. intros. eapply dec_lu_identity; eauto. Qed.
Print Assumptions C14_identity_with_error.

(** P*A = L*U holds exactly when every zero pivot has only zeros below it. *)
Theorem C14_identity_iff : forall (T : Type) (O : Ops T), FieldLaws O ->
  forall (A : matrix T) n f d l u, is_mat A n n f -> dec_lu A = Ret (Ok d) ->
  is_mat (lu_l d) n n l -> is_mat (lu_u d) n n u ->
  ((exists PA, mmul (lu_p d) A = Ret PA /\ mmul (lu_l d) (lu_u d) = Ret PA) <->
   (forall k, k < n -> u k k <> zero \/ forall r, k < r < n -> l r k = zero)).
Proof. intros T O F A n f d l u. apply (dec_lu_iff F). Qed.
Print Assumptions C14_identity_iff.

Theorem C14_identity_nonzero_pivots : forall (T : Type) (O : Ops T), FieldLaws O ->
  forall (A : matrix T) n f d, is_mat A n n f -> dec_lu A = Ret (Ok d) ->
  (forall k x, k < n -> mget (lu_u d) k k = Ret x -> x <> zero) ->
  exists PA, mmul (lu_p d) A = Ret PA /\ mmul (lu_l d) (lu_u d) = Ret PA.
Proof. intros T O F A n f d. apply (dec_lu_regular F). Qed.
Print Assumptions C14_identity_nonzero_pivots.

(** What the pivoting guarantees over the reals: multipliers are at most 1 under a positive
    pivot, at least 1 under a negative one. *)
Theorem C14_pivot_choice : forall (A : matrix R) n f, is_mat A n n f ->
  exists d l u, dec_lu A = Ret (Ok d) /\ is_mat (lu_l d) n n l /\ is_mat (lu_u d) n n u /\
    forall i r, i < r -> r < n ->
      ((0 < u i i)%R -> (l r i <= 1)%R) /\ ((u i i < 0)%R -> (1 <= l r i)%R) /\
      (u i i = 0%R -> (l r i <= 0)%R).
Proof. exact dec_lu_pivot. Qed.
Print Assumptions C14_pivot_choice.

(** A class of inputs for which it always works: strictly column diagonally dominant real
    matrices with positive diagonal are factored without row exchanges and with positive pivots. *)
Theorem C14_diagonally_dominant : forall (A : matrix R) n f, is_mat A n n f ->
  (forall c, c < n -> (sumn n (fun r => if r =? c then 0 else Rabs (f r c)) < f c c)%R) ->
  exists d u, dec_lu A = Ret (Ok d) /\ is_mat (lu_u d) n n u /\ is_mat (lu_p d) n n delta /\
    (forall k, k < n -> (0 < u k k)%R).
Proof. exact dec_lu_dd. Qed.
Print Assumptions C14_diagonally_dominant.

(** The identity fails for an invertible matrix: [[0,1],[-1,0]]. *)
Theorem C14_identity_refuted :
  exists (A B I : matrix Qc) d, dim A = (2, 2) /\ wf A /\ mone 2 = Ret I /\
    mmul A B = Ret I /\ mmul B A = Ret I /\
    dec_lu A = Ret (Ok d) /\ mmul (lu_p d) A <> mmul (lu_l d) (lu_u d).
Proof.
  exists (mkMatrix 2 2 [qz 0; qz (-1); qz 1; qz 0]), (mkMatrix 2 2 [qz 0; qz 1; qz (-1); qz 0]),
    (mkMatrix 2 2 [qz 1; qz 0; qz 0; qz 1]),
    (mkLU (mkMatrix 2 2 [qz 1; qz (-1); qz 0; qz 1]) (mkMatrix 2 2 [qz 0; qz 0; qz 1; qz 1])
          (mkMatrix 2 2 [qz 1; qz 0; qz 0; qz 1])).
  split; [reflexivity|]. split; [reflexivity|].
  split; [qcompute|]. split; [qcompute|]. split; [qcompute|]. split; [qcompute|]. qcompute.
Qed.
Print Assumptions C14_identity_refuted.

Example C14_example :
  dec_lu exLU = Ret (Ok exLU_dec) /\
  (forall k x, k < 3 -> mget (lu_u exLU_dec) k k = Ret x -> x <> zero).
Proof.
  split; [qcompute|]. intros k x Hk.
  destruct k as [|[|[|]]]; [..|lia]; intros H; injection H as <-; qcompute.
Qed.

(** * C15 *)

Theorem C15_forward_vector : forall (T : Type) (O : Ops T), FieldLaws O ->
  forall (M : matrix T) n Lf v b, is_mat M n n Lf -> is_col v n b -> lower n n Lf ->
  (forall k, k < n -> Lf k k <> zero) ->
  exists w, subst_forward_vec M v = Ret w /\ mmul_vec M w = Ret v.
Proof. intros T O F M n Lf v b. apply (subst_forward_vec_api F). Qed.
Print Assumptions C15_forward_vector.

Theorem C15_backward_vector : forall (T : Type) (O : Ops T), FieldLaws O ->
  forall (M : matrix T) n Uf v b, is_mat M n n Uf -> is_col v n b -> upper n n Uf ->
  (forall k, k < n -> Uf k k <> zero) ->
  exists w, subst_backward_vec M v = Ret w /\ mmul_vec M w = Ret v.
Proof. intros T O F M n Lf v b. apply (subst_backward_vec_api F). Qed.
Print Assumptions C15_backward_vector.

Theorem C15_forward_matrix : forall (T : Type) (O : Ops T), FieldLaws O ->
  forall (M : matrix T) n Lf B p b, is_mat M n n Lf -> is_mat B n p b -> lower n n Lf ->
  (forall k, k < n -> Lf k k <> zero) ->
  exists X, subst_forward_mat M B = Ret X /\ mmul M X = Ret B.
Proof. intros T O F M n Lf B p b. apply (subst_forward_mat_api F). Qed.
Print Assumptions C15_forward_matrix.

Theorem C15_backward_matrix : forall (T : Type) (O : Ops T), FieldLaws O ->
  forall (M : matrix T) n Uf B p b, is_mat M n n Uf -> is_mat B n p b -> upper n n Uf ->
  (forall k, k < n -> Uf k k <> zero) ->
  exists X, subst_backward_mat M B = Ret X /\ mmul M X = Ret B.
Proof. intros T O F M n Lf B p b. apply (subst_backward_mat_api F). Qed.
Print Assumptions C15_backward_matrix.

(** Any element type: the result depends on the relevant triangle of the coefficient matrix only. *)
Theorem C15_only_triangle_read : forall (T : Type) (O : Ops T) (M M' : matrix T) n g g' v B,
  is_mat M n n g -> is_mat M' n n g' ->
  ((forall k l, k < n -> l <= k -> g k l = g' k l) ->
     subst_forward_vec M v = subst_forward_vec M' v /\ subst_forward_mat M B = subst_forward_mat M' B) /\
  ((forall k l, l < n -> k <= l -> g k l = g' k l) ->
     subst_backward_vec M v = subst_backward_vec M' v /\ subst_backward_mat M B = subst_backward_mat M' B).
Proof.
  intros T O M M' n g g' v B H H'. split; intros E; split.
  - eapply subst_forward_vec_lower; eauto.
  - eapply subst_forward_mat_lower; eauto.
  - eapply subst_backward_vec_upper; eauto.
  - eapply subst_backward_mat_upper; eauto.
Qed.
Print Assumptions C15_only_triangle_read.

(** With a zero on the diagonal, backward substitution silently sets that component to 1. *)
Theorem C15_zero_diagonal_refuted :
  exists (M : matrix Qc) (v w w' : vector Qc),
    is_mat M 1 1 (fun _ _ => qz 0) /\ is_col v 1 (fun _ => qz 5) /\
    subst_backward_vec M v = Ret w /\ w = mkMatrix 1 1 [qz 1] /\ mmul_vec M w = Ret w' /\ w' <> v.
Proof.
  exists (mkMatrix 1 1 [qz 0]), (mkMatrix 1 1 [qz 5]), (mkMatrix 1 1 [qz 1]), (mkMatrix 1 1 [qz 0]).
  split; [apply is_mat_intro; auto; intros i j Hi Hj; replace i with 0 by lia; replace j with 0 by lia; reflexivity|].
  split; [apply is_mat_intro; auto; intros i j Hi Hj; replace i with 0 by lia; replace j with 0 by lia; reflexivity|].
  split; [qcompute|]. split; [reflexivity|]. split; [qcompute|]. qcompute.
Qed.
Print Assumptions C15_zero_diagonal_refuted.

(** The hypotheses are met by [[2,0],[1,4]] and its transpose. *)
Example C15_example :
  subst_forward_vec (mkMatrix 2 2 [qz 2; qz 1; qz 0; qz 4]) (mkMatrix 2 1 [qz 6; qz 11]) = Ret (mkMatrix 2 1 [qz 3; qz 2]) /\
  subst_backward_vec (mkMatrix 2 2 [qz 2; qz 0; qz 1; qz 4]) (mkMatrix 2 1 [qz 8; qz 8]) = Ret (mkMatrix 2 1 [qz 3; qz 2]) /\
  lower 2 2 (fun i j => nth (j * 2 + i) [qz 2; qz 1; qz 0; qz 4] (qz 0)) /\
  (forall k, k < 2 -> (fun i j => nth (j * 2 + i) [qz 2; qz 1; qz 0; qz 4] (qz 0)) k k <> zero).
Proof.
  split; [qcompute|]. split; [qcompute|]. split.
  - intros i j Hi Hj Hij. replace i with 0 by lia. replace j with 1 by lia. reflexivity.
  - intros k Hk. destruct k as [|[|]]; [..|lia]; qcompute.
Qed.

(** * C16 *)

Theorem C16_solve_vector : forall (T : Type) (O : Ops T), FieldLaws O ->
  forall (A : matrix T) n f v b d, is_mat A n n f -> is_col v n b ->
  dec_lu A = Ret (Ok d) -> (forall k x, k < n -> mget (lu_u d) k k = Ret x -> x <> zero) ->
  exists w, solve_vec A v = Ret (Ok w) /\ mmul_vec A w = Ret v /\ dim w = (n, 1) /\ wf w /\
    (forall w', dim w' = (n, 1) -> wf w' -> mmul_vec A w' = Ret v -> w' = w).
Proof. intros T O F A n f v b d HA Hv Hd Hz. apply (solve_vec_api F A n f v b HA Hv). exists d. auto. Qed.
Print Assumptions C16_solve_vector.

Theorem C16_solve_matrix : forall (T : Type) (O : Ops T), FieldLaws O ->
  forall (A : matrix T) n f B p b d, is_mat A n n f -> is_mat B n p b ->
  dec_lu A = Ret (Ok d) -> (forall k x, k < n -> mget (lu_u d) k k = Ret x -> x <> zero) ->
  exists X, solve_mat A B = Ret (Ok X) /\ mmul A X = Ret B /\ dim X = (n, p) /\ wf X /\
    (forall X', dim X' = (n, p) -> wf X' -> mmul A X' = Ret B -> X' = X).
Proof. intros T O F A n f B p b d HA Hv Hd Hz. apply (solve_mat_api F A n f B p b HA Hv). exists d. auto. Qed.
Print Assumptions C16_solve_matrix.

(** Solving and inverting with a stored decomposition is the same, outcome for outcome, as with the
    matrix itself; every theorem here about solve and inv holds for LUDec too. *)
Theorem C16_stored_decomposition : forall (T : Type) (O : Ops T) (A : matrix T) d v B, dec_lu A = Ret (Ok d) ->
  lu_solve_vec d v = solve_vec A v /\ lu_solve_mat d B = solve_mat A B /\ lu_inv d = minv A.
Proof. intros T O A d v B E. unfold solve_vec, solve_mat, minv. rewrite E. repeat split; reflexivity. Qed.
Print Assumptions C16_stored_decomposition.

(** Input condition without reference to the decomposition: diagonally dominant real systems. *)
Theorem C16_solve_diagonally_dominant : forall (A : matrix R) n f v b, is_mat A n n f -> is_col v n b ->
  (forall c, c < n -> (sumn n (fun r => if r =? c then 0 else Rabs (f r c)) < f c c)%R) ->
  exists w, solve_vec A v = Ret (Ok w) /\ mmul_vec A w = Ret v /\ dim w = (n, 1) /\ wf w /\
    (forall w', dim w' = (n, 1) -> wf w' -> mmul_vec A w' = Ret v -> w' = w).
Proof.
  intros A n f v b HA Hv Hdd. apply (solve_vec_api R_FieldLaws A n f v b HA Hv).
  apply (dd_regular A n f HA Hdd).
Qed.
Print Assumptions C16_solve_diagonally_dominant.

Example C16_example :
  solve_vec exLU exb = Ret (Ok (mkMatrix 3 1 [qf 4 5; qf 2 5; qz 1])) /\
  mmul_vec exLU (mkMatrix 3 1 [qf 4 5; qf 2 5; qz 1]) = Ret exb.
Proof. split; qcompute. Qed.
Example C16_example_dominant :
  is_mat (mkMatrix 2 2 [3; -1; 2; 4]%R) 2 2 (fun i j => nth (j * 2 + i) [3; -1; 2; 4]%R 0%R) /\
  (forall c, c < 2 -> (sumn 2 (fun r => if r =? c then 0 else Rabs (nth (c * 2 + r) [3; -1; 2; 4] 0)) < nth (c * 2 + c) [3; -1; 2; 4] 0)%R).
Proof.
  split; [apply is_mat_intro; auto; intros i j Hi Hj; apply vget_ok; simpl length; lia|].
  intros c Hc. destruct c as [|[|]]; [..|lia]; simpl.
  - rewrite Rabs_left by lra. lra.
  - rewrite Rabs_right by lra. lra.
Qed.

(** * C17 *)

Theorem C17_inverse : forall (T : Type) (O : Ops T), FieldLaws O ->
  forall (A : matrix T) n f d, is_mat A n n f ->
  dec_lu A = Ret (Ok d) -> (forall k x, k < n -> mget (lu_u d) k k = Ret x -> x <> zero) ->
  exists X I, minv A = Ret (Ok X) /\ mone n = Ret I /\ mmul A X = Ret I /\ mmul X A = Ret I.
Proof. intros T O F A n f d HA Hd Hz. apply (minv_ok F A n f HA). exists d. auto. Qed.
Print Assumptions C17_inverse.

Theorem C17_inverse_diagonally_dominant : forall (A : matrix R) n f, is_mat A n n f ->
  (forall c, c < n -> (sumn n (fun r => if r =? c then 0 else Rabs (f r c)) < f c c)%R) ->
  exists X I, minv A = Ret (Ok X) /\ mone n = Ret I /\ mmul A X = Ret I /\ mmul X A = Ret I.
Proof. intros A n f HA Hdd. apply (minv_ok R_FieldLaws A n f HA). apply (dd_regular A n f HA Hdd). Qed.
Print Assumptions C17_inverse_diagonally_dominant.

(** inv is solve with the identity as right-hand side, for every element type. *)
Theorem C17_inverse_is_solve : forall (T : Type) (O : Ops T) (A : matrix T) n f, is_mat A n n f ->
  exists I, mone n = Ret I /\ minv A = solve_mat A I.
Proof. intros T O A n f. apply minv_solve. Qed.
Print Assumptions C17_inverse_is_solve.

Example C17_example :
  minv (mkMatrix 2 2 [qz 1; qz 3; qz 2; qz 4]) =
  Ret (Ok (mkMatrix 2 2 [qz (-2); qf 3 2; qz 1; qf (-1) 2])).
Proof. qcompute. Qed.

(** * C18 *)

(** For square A and right-hand sides of matching height, solve and inv return Ok: no input is
    reported as singular (any element type). *)
Theorem C18_always_ok : forall (T : Type) (O : Ops T) (A : matrix T) n f v b B p g,
  is_mat A n n f -> is_col v n b -> is_mat B n p g ->
  (exists w x, solve_vec A v = Ret (Ok w) /\ is_col w n x) /\
  (exists X x, solve_mat A B = Ret (Ok X) /\ is_mat X n p x) /\
  (exists X x, minv A = Ret (Ok X) /\ is_mat X n n x).
Proof.
  intros. split; [eapply solve_vec_total; eauto|]. split; [eapply solve_mat_total; eauto|]. eapply minv_total; eauto.
Qed.
Print Assumptions C18_always_ok.
(** A singular matrix: ((1,2),(2,4)). *)
Example C18_example : is_mat (mkMatrix 2 2 [qz 1; qz 2; qz 2; qz 4]) 2 2 (fun i j => nth (j * 2 + i) [qz 1; qz 2; qz 2; qz 4] (qz 0)) /\
  is_col (mkMatrix 2 1 [qz 1; qz 3]) 2 (fun i => nth i [qz 1; qz 3] (qz 0)) /\
  exists w x, solve_vec (mkMatrix 2 2 [qz 1; qz 2; qz 2; qz 4]) (mkMatrix 2 1 [qz 1; qz 3]) = Ret (Ok w) /\ is_col w 2 x.
Proof.
  assert (HA : is_mat (mkMatrix 2 2 [qz 1; qz 2; qz 2; qz 4]) 2 2 (fun i j => nth (j * 2 + i) [qz 1; qz 2; qz 2; qz 4] (qz 0))).
  { split; [reflexivity|]. split; [reflexivity|]. intros i j Hi Hj. destruct i as [|[|i]]; try lia; (destruct j as [|[|j]]; try lia); reflexivity. }
  assert (Hb : is_col (mkMatrix 2 1 [qz 1; qz 3]) 2 (fun i => nth i [qz 1; qz 3] (qz 0))).
  { split; [reflexivity|]. split; [reflexivity|]. intros i j Hi Hj. destruct i as [|[|i]]; try lia; (destruct j as [|j]; try lia); reflexivity. }
  split; [exact HA|]. split; [exact Hb|]. exact (proj1 (C18_always_ok Qc Qc_ops _ 2 _ _ _ _ 2 _ HA Hb HA)).
Qed.

(** Singular A, inconsistent right-hand side: Ok with a vector that solves nothing. *)
Theorem C18_singular_refuted :
  exists (A : matrix Qc) (v w : vector Qc), dim A = (2, 2) /\ wf A /\ dim v = (2, 1) /\ wf v /\
    solve_vec A v = Ret (Ok w) /\ mmul_vec A w <> Ret v.
Proof.
  exists (mkMatrix 2 2 [qz 1; qz 1; qz 1; qz 1]), (mkMatrix 2 1 [qz 0; qz 1]), (mkMatrix 2 1 [qz (-1); qz 1]).
  split; [reflexivity|]. split; [reflexivity|]. split; [reflexivity|]. split; [reflexivity|].
  split; [qcompute|]. qcompute.
Qed.
Print Assumptions C18_singular_refuted.

(** Invertible A whose pivot search meets a zero: Ok with a wrong solution. *)
Theorem C18_invertible_refuted :
  exists (A B I : matrix Qc) (v w : vector Qc), dim A = (2, 2) /\ wf A /\
    mone 2 = Ret I /\ mmul A B = Ret I /\ mmul B A = Ret I /\
    dim v = (2, 1) /\ wf v /\ solve_vec A v = Ret (Ok w) /\ mmul_vec A w <> Ret v.
Proof.
  exists (mkMatrix 2 2 [qz 0; qz (-1); qz 1; qz 0]), (mkMatrix 2 2 [qz 0; qz 1; qz (-1); qz 0]),
    (mkMatrix 2 2 [qz 1; qz 0; qz 0; qz 1]), (mkMatrix 2 1 [qz 1; qz 2]), (mkMatrix 2 1 [qz 1; qz 3]).
  split; [reflexivity|]. split; [reflexivity|]. split; [qcompute|]. split; [qcompute|].
  split; [qcompute|]. split; [reflexivity|]. split; [reflexivity|]. split; [qcompute|]. qcompute.
Qed.
Print Assumptions C18_invertible_refuted.

(** Even a symmetric positive definite matrix, A = L D L^T with L unit lower triangular and D > 0. *)
Theorem C18_positive_definite_refuted :
  exists (A : matrix Qc) (v w : vector Qc), A = mkMatrix 3 3 [qf 3 2; qz 2; qz 1; qz 2; qz 4; qz 2; qz 1; qz 2; qz 10] /\
    (let! LD := mmul (mkMatrix 3 3 [qz 1; qf 4 3; qf 2 3; qz 0; qz 1; qf 1 2; qz 0; qz 0; qz 1]) (mkMatrix 3 3 [qf 3 2; qz 0; qz 0; qz 0; qf 4 3; qz 0; qz 0; qz 0; qz 9]) in
     mmul LD (mkMatrix 3 3 [qz 1; qz 0; qz 0; qf 4 3; qz 1; qz 0; qf 2 3; qf 1 2; qz 1])) = Ret A /\
    dim v = (3, 1) /\ wf v /\ solve_vec A v = Ret (Ok w) /\ mmul_vec A w <> Ret v.
Proof.
  eexists _, (mkMatrix 3 1 [qz 1; qz 0; qz 0]), (mkMatrix 3 1 [qf (-36) 17; qz 1; qf 2 17]).
  split; [reflexivity|]. split; [qcompute|]. split; [reflexivity|]. split; [reflexivity|]. split; [qcompute|]. qcompute.
Qed.
Print Assumptions C18_positive_definite_refuted.

(** The same for the inverse. *)
Theorem C18_inverse_refuted :
  exists (A B I X : matrix Qc), dim A = (2, 2) /\ wf A /\
    mone 2 = Ret I /\ mmul A B = Ret I /\ mmul B A = Ret I /\
    minv A = Ret (Ok X) /\ mmul A X <> Ret I.
Proof.
  exists (mkMatrix 2 2 [qz 0; qz (-1); qz 1; qz 0]), (mkMatrix 2 2 [qz 0; qz 1; qz (-1); qz 0]),
    (mkMatrix 2 2 [qz 1; qz 0; qz 0; qz 1]), (mkMatrix 2 2 [qz 0; qz 1; qz 0; qz 1]).
  split; [reflexivity|]. split; [reflexivity|]. split; [qcompute|]. split; [qcompute|].
  split; [qcompute|]. split; [qcompute|]. qcompute.
Qed.
Print Assumptions C18_inverse_refuted.
