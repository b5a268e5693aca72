(** Property theorems C19: the determinant.

    Reading guide.  [is_det O n D] (Det_spec.v): D is the determinant of n x n entry functions, i.e.
    linear in every row, zero on matrices with two equal rows and 1 on the identity; the first two
    theorems say that exactly one such function exists.  [cycle_on n s xs]: the permutation s of
    0..n-1 is the single cycle through xs.  [alt k] is (-1)^k.  [pow b k] stands for the scalar
    power function that det uses for its sign; the only assumption about it is that
    (-1)^k is computed correctly. *)
From Coq Require Import Arith List Bool Lia QArith Qcanon.
From Verif Require Import Outcome Scalar Matrix_model Transpose_model Vector_model LU_model Matrix_spec LU_spec
  Det_spec Matrix_proofs Vector_proofs LU_proofs Subst_proofs Det_proofs QcCompute.
Import ListNotations.
Local Open Scope nat_scope.

Theorem C19_determinant_exists_unique : forall (T : Type) (O : Ops T), RingLaws O -> forall n,
  (exists D, is_det O n D) /\
  (forall D1 D2, is_det O n D1 -> is_det O n D2 -> forall f, D1 f = D2 f).
Proof. intros T O L n. split; [apply (is_det_exists L) | intros D1 D2; apply (is_det_unique L)]. Qed.
Print Assumptions C19_determinant_exists_unique.

(** n <= 2: always right. *)
Theorem C19_small : forall (T : Type) (O : Ops T), FieldLaws O -> forall pow (A : matrix T) n f D,
  n <= 2 -> is_mat A n n f -> is_det O n D -> (forall k, pow (neg one) k = alt k) ->
  mdet pow A = Ret (D f).
Proof. intros T O F pow A n f D Hn HA HD Hp. apply (mdet_3 F pow A n f D); auto; intros; lia. Qed.
Print Assumptions C19_small.

(** n = 3: right whenever the LU factors satisfy P*A = L*U. *)
Theorem C19_three : forall (T : Type) (O : Ops T), FieldLaws O -> forall pow (A : matrix T) f D d PA,
  is_mat A 3 3 f -> is_det O 3 D -> (forall k, pow (neg one) k = alt k) ->
  dec_lu A = Ret (Ok d) -> mmul (lu_p d) A = Ret PA -> mmul (lu_l d) (lu_u d) = Ret PA ->
  mdet pow A = Ret (D f).
Proof.
  intros T O F pow A f D d PA HA HD Hp Hd H1 H2. apply (mdet_3 F pow A 3 f D); auto.
  intros d' _ Hd'. rewrite Hd in Hd'. injection Hd' as <-. eauto.
Qed.
Print Assumptions C19_three.

(** Any n: right whenever P*A = L*U and the rows are permuted by a single cycle. *)
Theorem C19_single_cycle : forall (T : Type) (O : Ops T), FieldLaws O ->
  forall pow (A : matrix T) n f D d PA s xs,
  is_mat A n n f -> is_det O n D -> (forall k, pow (neg one) k = alt k) ->
  dec_lu A = Ret (Ok d) -> mmul (lu_p d) A = Ret PA -> mmul (lu_l d) (lu_u d) = Ret PA ->
  is_mat (lu_p d) n n (perm_fun s) -> cycle_on n s xs -> 0 < length xs ->
  mdet pow A = Ret (D f).
Proof.
  intros T O F pow A n f D d PA s xs HA HD Hp Hd H1 H2 HP Hc Hl. apply (mdet_ok F pow A n f D); auto.
  intros d' _ Hd'. rewrite Hd in Hd'. injection Hd' as <-. split; eauto.
Qed.
Print Assumptions C19_single_cycle.

(** In particular when no rows are exchanged. *)
Theorem C19_no_row_exchange : forall (T : Type) (O : Ops T), FieldLaws O ->
  forall pow (A : matrix T) n f D d PA,
  0 < n -> is_mat A n n f -> is_det O n D -> (forall k, pow (neg one) k = alt k) ->
  dec_lu A = Ret (Ok d) -> mmul (lu_p d) A = Ret PA -> mmul (lu_l d) (lu_u d) = Ret PA ->
  is_mat (lu_p d) n n delta ->
  mdet pow A = Ret (D f).
Proof.
  intros T O F pow A n f D d PA Hn HA HD Hp Hd H1 H2 HP.
  apply (C19_single_cycle T O F pow A n f D d PA (fun r => r) [0]); auto.
  repeat split; simpl; auto.
  - repeat constructor. simpl. tauto.
  - intros x [<-|[]]. assumption.
Qed.
Print Assumptions C19_no_row_exchange.

(** Any n: right up to sign whenever P*A = L*U. *)
Theorem C19_up_to_sign : forall (T : Type) (O : Ops T), FieldLaws O ->
  forall pow (A : matrix T) n f D d PA,
  is_mat A n n f -> is_det O n D -> (forall k, pow (neg one) k = alt k) ->
  dec_lu A = Ret (Ok d) -> mmul (lu_p d) A = Ret PA -> mmul (lu_l d) (lu_u d) = Ret PA ->
  mdet pow A = Ret (D f) \/ mdet pow A = Ret (neg (D f)).
Proof.
  intros T O F pow A n f D d PA HA HD Hp Hd H1 H2. apply (mdet_abs F pow A n f D); auto.
  intros d' _ Hd'. rewrite Hd in Hd'. injection Hd' as <-. eauto.
Qed.
Print Assumptions C19_up_to_sign.

Definition qpow (b : Qc) (k : nat) : Qc := prodn k (fun _ => b).
Lemma qpow_alt k : qpow (neg one) k = alt k.
Proof.
  unfold qpow. induction k as [|k IH]; [reflexivity|]. cbn [prodn alt]. rewrite IH.
  generalize (@alt Qc Qc_ops k). intros x. cbn [mul neg one Qc_ops]. change (Qcmult x (Qcopp (Q2Qc 1)) = Qcopp x); ring.
Qed.

(** Wrong sign: the permutation matrix that exchanges rows 0,1 and rows 2,3 has determinant 1 but
    det returns -1. *)
Theorem C19_sign_refuted :
  exists (A : matrix Qc) f D, is_mat A 4 4 f /\ is_det Qc_ops 4 D /\ D f = qz 1 /\ mdet qpow A = Ret (qz (-1)).
Proof.
  set (l := [qz 0; qz 1; qz 0; qz 0;  qz 1; qz 0; qz 0; qz 0;  qz 0; qz 0; qz 0; qz 1;  qz 0; qz 0; qz 1; qz 0]).
  exists (mkMatrix 4 4 l), (fun i j => nth (j * 4 + i) l (qz 0)), (lapl 4).
  split; [apply is_mat_intro; auto; intros i j Hi Hj; apply vget_ok; simpl length; lia|].
  split; [apply (lapl_is_det Qc_RingLaws)|]. split; qcompute.
Qed.
Print Assumptions C19_sign_refuted.

(** Wrong value at a zero pivot: [[0,1,0],[-1,0,0],[0,0,1]] has determinant 1 but det returns 0. *)
Theorem C19_pivot_refuted :
  exists (A : matrix Qc) f D, is_mat A 3 3 f /\ is_det Qc_ops 3 D /\ D f = qz 1 /\ mdet qpow A = Ret (qz 0).
Proof.
  set (l := [qz 0; qz (-1); qz 0;  qz 1; qz 0; qz 0;  qz 0; qz 0; qz 1]).
  exists (mkMatrix 3 3 l), (fun i j => nth (j * 3 + i) l (qz 0)), (lapl 3).
  split; [apply is_mat_intro; auto; intros i j Hi Hj; apply vget_ok; simpl length; lia|].
  split; [apply (lapl_is_det Qc_RingLaws)|]. split; qcompute.
Qed.
Print Assumptions C19_pivot_refuted.

(** The hypotheses of the 3 x 3 and single-cycle theorems are met by the cyclic shift below, with
    P a 3-cycle. *)
Definition exD : matrix Qc := mkMatrix 3 3 [qz 0; qz 2; qz 1; qz 0; qz 1; qz 3; qz 5; qz 1; qz 1].
Definition exD_dec : ludec Qc := mkLU
  (mkMatrix 3 3 [qz 1; qf 1 2; qz 0; qz 0; qz 1; qz 0; qz 0; qz 0; qz 1])
  (mkMatrix 3 3 [qz 2; qz 0; qz 0; qz 1; qf 5 2; qz 0; qz 1; qf 1 2; qz 5])
  (mkMatrix 3 3 [qz 0; qz 0; qz 1; qz 1; qz 0; qz 0; qz 0; qz 1; qz 0]).
Example C19_example :
  dec_lu exD = Ret (Ok exD_dec) /\
  mmul (lu_p exD_dec) exD = mmul (lu_l exD_dec) (lu_u exD_dec) /\
  (let s := fun r => nth r [1; 2; 0] 0 in is_mat (lu_p exD_dec) 3 3 (perm_fun s) /\ cycle_on 3 s [0; 1; 2]) /\
  mdet qpow exD = Ret (qz 25).
Proof.
  split; [qcompute|]. split; [qcompute|]. split; [|qcompute]. split.
  - apply is_mat_intro; auto. intros i j Hi Hj.
    destruct i as [|[|[|]]]; [| | |lia]; (destruct j as [|[|[|]]]; [| | |lia]); reflexivity.
  - split; [repeat constructor; simpl; intuition lia|]. split; [simpl; intuition lia|]. split; [simpl; auto|].
    intros i Hi Hn. exfalso. apply Hn. simpl. lia.
Qed.
