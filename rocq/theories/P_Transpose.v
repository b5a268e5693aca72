(** Property theorems C05: in-place transposition.  Reading guide: see P_Matrix.v. *)
From Coq Require Import Arith List Bool Lia Permutation QArith Qcanon.
From Verif Require Import Outcome Scalar Matrix_model Transpose_model Matrix_spec
  Matrix_proofs Transpose_proofs MatProps_proofs P_Matrix.
Import ListNotations.
Local Open Scope nat_scope.

(** transpose() terminates normally on every non-empty matrix (in particular no index of the
    index arithmetic or of the scratch buffer is out of range or read before it is written),
    swaps the dimensions and moves storage cell i*n+j to storage cell j*m+i. *)
Theorem C05_transpose_storage : forall (T : Type) (A : matrix T),
  wf A -> 0 < rows A -> 0 < cols A ->
  exists B, mtranspose A = Ret B /\ dim B = (cols A, rows A) /\ wf B /\
    forall i j, i < rows A -> j < cols A ->
      nth_error (data B) (j * rows A + i) = nth_error (data A) (i * cols A + j).
Proof. exact @transpose_storage. Qed.
Print Assumptions C05_transpose_storage.

Theorem C05_transpose_permutes : forall (T : Type) (A B : matrix T),
  wf A -> 0 < rows A -> 0 < cols A -> mtranspose A = Ret B -> Permutation (data A) (data B).
Proof. exact @transpose_permutes. Qed.
Print Assumptions C05_transpose_permutes.

Theorem C05_transpose_involutive : forall (T : Type) (A : matrix T),
  wf A -> 0 < rows A -> 0 < cols A -> exists B, mtranspose A = Ret B /\ mtranspose B = Ret A.
Proof. exact @transpose_involutive. Qed.
Print Assumptions C05_transpose_involutive.

(** The meaning result(j,i) = self(i,j) holds for all contents exactly on these shapes. *)
Theorem C05_transpose_meaning_iff : forall m n : nat, 0 < m -> 0 < n ->
  ((forall (T : Type) (A : matrix T) f, is_mat A m n f ->
      exists B, mtranspose A = Ret B /\ is_mat B n m (fun i j => f j i))
   <-> (m = n \/ m = 1 \/ n = 1)).
Proof. exact transpose_ok_iff. Qed.
Print Assumptions C05_transpose_meaning_iff.

(** Concrete witness that the documented meaning fails. *)
Theorem C05_transpose_meaning_refuted :
  exists (A B : matrix Qc), wf A /\ mtranspose A = Ret B /\
    exists i j x y, mget A i j = Ret x /\ mget B j i = Ret y /\ x <> y.
Proof.
  exists exA, (mkMatrix 3 2 [qz 1; qz 5; qz 4; qz 3; qz 2; qz 6]).
  split; [reflexivity|]. split; [vm_compute; reflexivity|].
  exists 0, 1, (qz 2), (qz 5). repeat split; try reflexivity. discriminate.
Qed.
Print Assumptions C05_transpose_meaning_refuted.

Theorem C05_transpose_empty : forall (T : Type) (A : matrix T), rows A = 0 -> cols A = 0 -> mtranspose A = Panic.
Proof. exact @mtranspose_00. Qed.
Print Assumptions C05_transpose_empty.

Example C05_example : wf exA /\ 0 < rows exA /\ 0 < cols exA /\
  mtranspose exS = Ret (mkMatrix 2 2 [qz 1; qz 2; qz 3; qz 4]).
Proof. split; [reflexivity|]. simpl rows. simpl cols. repeat split; try lia; vm_compute; reflexivity. Qed.
