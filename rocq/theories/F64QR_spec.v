(** Vocabulary for the QR decomposition in binary64: the order in which [dec_qr] meets the pairs (a_jj, a_ij), and the
    condition on the pairs under which a rotation is computed accurately. *)
From Coq Require Import Arith List Reals SpecFloat.
From Flocq Require Import Core.
From Verif Require Import Outcome Scalar RealOps Matrix_model Decomp_model F64_spec.
Import ListNotations.
Local Open Scope R_scope.

(** The positions (j, i), column then row, that an m x n decomposition treats, in order: column by column, each from the
    last row up to the row below the diagonal. *)
Definition qr_order (m n : nat) : list (nat * nat) :=
  flat_map (fun j => map (fun i => (j, i)) (rev (seq (j + 1) (m - (j + 1))))) (seq 0 n).
(** The pair (q, r) after the positions in l have been treated. *)
Definition qr_after {T} {O : Ops T} {P : POps T} (l : list (nat * nat)) (st : matrix T * matrix T) : outcome (matrix T * matrix T) :=
  fold_left (fun o p => let! s := o in qr_step (fst p) (snd p) s) l (Ret st).
(** Every pair (a_jj, a_ij) of the decomposition of A, at the moment the position (j, i) is treated, satisfies ok. *)
Definition qr_pairs (pw : f64 -> f64 -> f64) (A : matrix f64) (ok : R -> R -> Prop) : Prop :=
  forall l1 j i l2 I q r a b, qr_order (rows A) (cols A) = l1 ++ (j, i) :: l2 -> mone (rows A) = Ret I ->
    @qr_after f64 F64_ops (F64_pops pw) l1 (I, A) = Ret (q, r) -> mget r j j = Ret a -> mget r i j = Ret b -> ok (fval a) (fval b).
(** No harmful underflow of a^2 + b^2: nothing to do, or one of the two is at least 2^-500. *)
Definition pair_large (a b : R) : Prop := a = 0 \/ b = 0 \/ bpow radix2 (-500) <= Rmax (Rabs a) (Rabs b).
(** The pair is eliminated: a_ij is zero already, or a_jj is not zero and there is no harmful underflow. *)
Definition pair_eliminated (a b : R) : Prop := b = 0 \/ (a <> 0 /\ bpow radix2 (-500) <= Rmax (Rabs a) (Rabs b)).

(** A square root function that is accurate ([sqrt_acc]) and finite where it should be. *)
Definition sqrt_good (k : nat) (sq : f64 -> f64) : Prop :=
  sqrt_acc k sq /\ forall x, fvalid x -> ffin x = true -> 0 <= fval x -> ffin (sq x) = true.
