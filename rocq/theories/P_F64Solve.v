(** Property theorem C105: forward errors of linear solves and the error of the determinant, in binary64.

    Reading guide.  [fvalid], [ffin], [fval], [uro], [eta64] and [gam] are in F64_spec.v, and [is_mat], [is_col] in Matrix_spec.v; see
    P_Rounding.v.  [left_inverse n inv a]: the real n x n matrix [inv] times [a] is the identity.  [is_det R_ops n D] (Det_spec.v):
    D is the real determinant.  [tails n u] (F64Det_spec.v) only multiplies the underflow threshold. *)
From Coq Require Import ZArith Reals Lra Lia Bool Arith List SpecFloat.
From Flocq Require Import Core.
From Verif Require Import Outcome Scalar Matrix_model Vector_model LU_model Int_model Special_model Matrix_spec LU_spec Det_spec F64_spec F64Det_spec
  Matrix_proofs Vector_proofs Det_proofs F64Flocq F64Err_proofs F64Lin_proofs F64Mat_proofs F64Det_proofs.
Import ListNotations.
Local Open Scope R_scope.

(** * Forward errors *)

(** The error of every component of the computed solution of A x = b is at most the corresponding row of |A^-1|, applied
    to the residual bound of [C83_solve]. *)
Theorem C105_solve : forall (A : matrix f64) n f v b (inv : nat -> nat -> R) (y : nat -> R), is_mat A n n f -> is_col v n b ->
  (forall r c, (r < n)%nat -> (c < n)%nat -> fvalid (f r c)) -> (forall r, (r < n)%nat -> fvalid (b r)) ->
  left_inverse n inv (fun r c => fval (f r c)) ->
  (forall r, (r < n)%nat -> rsum n (fun c => fval (f r c) * y c) = fval (b r)) ->
  exists d l u s w x, dec_lu A = Ret (Ok d) /\ is_mat (lu_l d) n n l /\ is_mat (lu_u d) n n u /\ is_mat (lu_p d) n n (perm_fun s) /\ perm_on n s /\
    solve_vec A v = Ret (Ok w) /\ is_col w n x /\
    ((forall k, (k < n)%nat -> ffin (u k k) = true /\ fval (u k k) <> 0) -> (forall k, (k < n)%nat -> ffin (x k) = true) ->
     forall i, (i < n)%nat ->
     Rabs (fval (x i) - y i) <=
       rsum n (fun r => Rabs (inv i (s r)) *
         (gam (3 * n) * rsum n (fun k => Rabs (fval (l r k)) * rsum n (fun c => Rabs (fval (u k c) * fval (x c)))) +
          (INR n + 1 + rsum n (fun k => (INR n + Rabs (fval (u k k))) * (Rabs (fval (l r k)) + Rabs (fval (x k))))) * (eta64 * (1 + uro) ^ (2 * n))))).
Proof.
  intros A n f v b inv y HA Hv VA Vb HI HY. destruct (solve_vec_err A n f v b HA Hv VA Vb) as (d & l & u & s & w & x & E1 & E2 & E3 & E4 & Hs & E5 & E6 & H).
  exists d, l, u, s, w, x. repeat (split; [assumption|]). intros FD FX i Hi. destruct (H FD FX) as [_ H'].
  exact (fwd_from_residual n (fun r c => fval (f r c)) inv s (fun r => fval (b r)) (fun c => fval (x c)) y _ Hs HI HY H' i Hi).
Qed.
Print Assumptions C105_solve.

(** Several right-hand sides: column j of the solution of A X = B. *)
Theorem C105_solve_matrix : forall (A : matrix f64) n f B p b (inv : nat -> nat -> R) (y : nat -> nat -> R), is_mat A n n f -> is_mat B n p b ->
  (forall r c, (r < n)%nat -> (c < n)%nat -> fvalid (f r c)) -> (forall r c, (r < n)%nat -> (c < p)%nat -> fvalid (b r c)) ->
  left_inverse n inv (fun r c => fval (f r c)) ->
  (forall r j, (r < n)%nat -> (j < p)%nat -> rsum n (fun c => fval (f r c) * y c j) = fval (b r j)) ->
  exists d l u s X x, dec_lu A = Ret (Ok d) /\ is_mat (lu_l d) n n l /\ is_mat (lu_u d) n n u /\ is_mat (lu_p d) n n (perm_fun s) /\ perm_on n s /\
    solve_mat A B = Ret (Ok X) /\ is_mat X n p x /\
    forall j, (j < p)%nat -> (forall k, (k < n)%nat -> ffin (u k k) = true) -> (forall k, (k < n)%nat -> ffin (x k j) = true) ->
     forall i, (i < n)%nat ->
     Rabs (fval (x i j) - y i j) <=
       rsum n (fun r => Rabs (inv i (s r)) *
         (gam (3 * (n + 6)) * rsum n (fun k => Rabs (fval (l r k)) * rsum n (fun c => Rabs (fval (u k c) * fval (x c j)))) +
          (INR n + 1 + rsum n (fun k => (INR n + Rabs (fval (u k k))) * (Rabs (fval (l r k)) + Rabs (fval (x k j))))) * (eta64 * (1 + uro) ^ (2 * (n + 6))))).
Proof.
  intros A n f B p b inv y HA HB VA Vb HI HY. destruct (solve_mat_err A n f B p b HA HB VA Vb) as (d & l & u & s & w & x & E1 & E2 & E3 & E4 & Hs & E5 & E6 & H).
  exists d, l, u, s, w, x. repeat (split; [assumption|]). intros j Hj FD FX i Hi. destruct (H j Hj FD FX) as [_ [_ H']].
  exact (fwd_from_residual n (fun r c => fval (f r c)) inv s (fun r => fval (b r j)) (fun c => fval (x c j)) (fun c => y c j) _ Hs HI (fun r Hr => HY r j Hr Hj) H' i Hi).
Qed.
Print Assumptions C105_solve_matrix.

(** The inverse, against the exact (two-sided) inverse. *)
Theorem C105_inverse : forall (A : matrix f64) n f (inv : nat -> nat -> R), is_mat A n n f -> (forall r c, (r < n)%nat -> (c < n)%nat -> fvalid (f r c)) ->
  left_inverse n inv (fun r c => fval (f r c)) -> left_inverse n (fun r c => fval (f r c)) inv ->
  exists d l u s X x, dec_lu A = Ret (Ok d) /\ is_mat (lu_l d) n n l /\ is_mat (lu_u d) n n u /\ is_mat (lu_p d) n n (perm_fun s) /\ perm_on n s /\
    minv A = Ret (Ok X) /\ is_mat X n n x /\
    forall j, (j < n)%nat -> (forall k, (k < n)%nat -> ffin (u k k) = true) -> (forall k, (k < n)%nat -> ffin (x k j) = true) ->
     forall i, (i < n)%nat ->
     Rabs (fval (x i j) - inv i j) <=
       rsum n (fun r => Rabs (inv i (s r)) *
         (gam (3 * (n + 6)) * rsum n (fun k => Rabs (fval (l r k)) * rsum n (fun c => Rabs (fval (u k c) * fval (x c j)))) +
          (INR n + 1 + rsum n (fun k => (INR n + Rabs (fval (u k k))) * (Rabs (fval (l r k)) + Rabs (fval (x k j))))) * (eta64 * (1 + uro) ^ (2 * (n + 6))))).
Proof.
  intros A n f inv HA VA HI HR. destruct (minv_err A n f HA VA) as (d & l & u & s & w & x & E1 & E2 & E3 & E4 & Hs & E5 & E6 & H).
  exists d, l, u, s, w, x. repeat (split; [assumption|]). intros j Hj FD FX i Hi. destruct (H j Hj FD FX) as [_ [_ H']].
  exact (fwd_from_residual n (fun r c => fval (f r c)) inv s (fun r => if (r =? j)%nat then 1 else 0) (fun c => fval (x c j)) (fun c => inv c j) _ Hs HI (fun r Hr => HR r j Hr Hj) H' i Hi).
Qed.
Print Assumptions C105_inverse.

(** An instance of all three: A = ((1, 2), (3, 7)), whose inverse is ((7, -2), (-3, 1)), and b = (1/3, 3). *)
Definition i64 (z : Z) : f64 := int_as_f64 z.
Definition exA : matrix f64 := mkMatrix 2 2 [i64 1; i64 3; i64 2; i64 7].
Definition entA (i j : nat) : f64 := nth (j * 2 + i) (data exA) zero.
Definition exb : vector f64 := mkMatrix 2 1 [div (i64 1) (i64 3); i64 3].
Definition entb (i : nat) : f64 := nth i (data exb) zero.
Definition invA (i j : nat) : R := match i, j with 0%nat, 0%nat => 7 | 0%nat, _ => -2 | _, 0%nat => -3 | _, _ => 1 end.
Definition soly (i : nat) : R := match i with 0%nat => 7 * fval (entb 0) - 2 * fval (entb 1) | _ => - 3 * fval (entb 0) + fval (entb 1) end.
Lemma entA_vals : fval (entA 0 0) = 1 /\ fval (entA 1 0) = 3 /\ fval (entA 0 1) = 2 /\ fval (entA 1 1) = 7.
Proof. unfold fval. cbn. unfold F2R. cbn. lra. Qed.
Example C105_solve_ex : is_mat exA 2 2 entA /\ is_col exb 2 entb /\
  (forall r c, (r < 2)%nat -> (c < 2)%nat -> fvalid (entA r c)) /\ (forall r, (r < 2)%nat -> fvalid (entb r)) /\
  left_inverse 2 invA (fun r c => fval (entA r c)) /\ left_inverse 2 (fun r c => fval (entA r c)) invA /\
  (forall r, (r < 2)%nat -> rsum 2 (fun c => fval (entA r c) * soly c) = fval (entb r)) /\
  exists d w X, dec_lu exA = Ret (Ok d) /\ solve_vec exA exb = Ret (Ok w) /\ minv exA = Ret (Ok X) /\
    (forall k, (k < 2)%nat -> exists p, mget (lu_u d) k k = Ret p /\ ffin p = true /\ fval p <> 0) /\
    (forall k, (k < 2)%nat -> exists y, vvget w k = Ret y /\ ffin y = true) /\
    (forall i k, (i < 2)%nat -> (k < 2)%nat -> exists y, mget X i k = Ret y /\ ffin y = true).
Proof.
  split. { apply is_mat_intro; auto. intros i j Hi Hj. apply vget_ok. simpl length. lia. }
  split. { apply is_mat_intro; auto. intros i j Hi Hj. assert (j = 0)%nat by lia. subst j. apply vget_ok. simpl length. lia. }
  split. { intros [|[|r]] [|[|c]] Hr Hc; first [lia|vm_compute; reflexivity]. }
  split. { intros [|[|r]] Hr; first [lia|vm_compute; reflexivity]. }
  destruct entA_vals as (V1 & V2 & V3 & V4).
  split. { intros [|[|r]] [|[|c]] Hr Hc; first [lia|cbn [sumn invA]; rewrite ?V1, ?V2, ?V3, ?V4; cbn; ring]. }
  split. { intros [|[|r]] [|[|c]] Hr Hc; first [lia|cbn [sumn invA]; rewrite ?V1, ?V2, ?V3, ?V4; cbn; ring]. }
  split. { intros [|[|r]] Hr; first [lia|cbn [sumn soly]; rewrite ?V1, ?V2, ?V3, ?V4; cbn [add zero R_ops]; ring]. }
  eexists _, _, _. split; [vm_compute; reflexivity|]. split; [vm_compute; reflexivity|]. split; [vm_compute; reflexivity|]. split; [|split].
  - intros [|[|i]] Hi; [..|lia]; (eexists; split; [vm_compute; reflexivity|]; split; [vm_compute; reflexivity|]; apply fnz; vm_compute; reflexivity).
  - intros [|[|i]] Hi; [..|lia]; (eexists; split; vm_compute; reflexivity).
  - intros [|[|i]] [|[|j]] Hi Hj; first [lia|eexists; split; vm_compute; reflexivity].
Qed.

(** * The determinant *)

(** 1 x 1: exact. *)
Theorem C105_det1 : forall (pow : f64 -> nat -> f64) (A : matrix f64) f, is_mat A 1 1 f -> mdet pow A = Ret (f 0%nat 0%nat).
Proof. exact mdet1_exact. Qed.
Print Assumptions C105_det1.
Example C105_det1_ex : is_mat (mkMatrix 1 1 [i64 5]) 1 1 (fun _ _ => i64 5).
Proof. apply is_mat_intro; auto. intros i j Hi Hj. assert (i = 0 /\ j = 0)%nat as [-> ->] by lia. reflexivity. Qed.

(** 2 x 2: an error relative to |a11 a22| + |a12 a21|. *)
Theorem C105_det2 : forall (pow : f64 -> nat -> f64) (A : matrix f64) f, is_mat A 2 2 f ->
  (forall r c, (r < 2)%nat -> (c < 2)%nat -> fvalid (f r c)) ->
  exists t, mdet pow A = Ret t /\
    (ffin t = true ->
     (forall r c, (r < 2)%nat -> (c < 2)%nat -> ffin (f r c) = true) /\
     Rabs (fval t - (fval (f 0%nat 0%nat) * fval (f 1%nat 1%nat) - fval (f 0%nat 1%nat) * fval (f 1%nat 0%nat))) <=
       gam 2 * (Rabs (fval (f 0%nat 0%nat) * fval (f 1%nat 1%nat)) + Rabs (fval (f 0%nat 1%nat) * fval (f 1%nat 0%nat))) + 2 * eta64 * (1 + uro)).
Proof. exact mdet2_err. Qed.
Print Assumptions C105_det2.
Example C105_det2_ex : exists t, mdet (fun x _ => x) exA = Ret t /\ ffin t = true.
Proof. eexists. split; vm_compute; reflexivity. Qed.

(** Not relative to the determinant itself: with a = 1 + 2^-27 the matrix ((a, 1), (1 + 2^-26, a)) has the
    determinant 2^-54, and the result is 0. *)
Theorem C105_det2_refuted : exists (A : matrix f64) f, is_mat A 2 2 f /\ (forall r c, (r < 2)%nat -> (c < 2)%nat -> fvalid (f r c) /\ ffin (f r c) = true) /\
  fval (f 0%nat 0%nat) * fval (f 1%nat 1%nat) - fval (f 0%nat 1%nat) * fval (f 1%nat 0%nat) = / 2 ^ 54 /\
  forall pow : f64 -> nat -> f64, mdet pow A = Ret zero.
Proof.
  set (a := S754_finite false (2 ^ 52 + 2 ^ 25) (-52)). set (b := S754_finite false (2 ^ 52 + 2 ^ 26) (-52)).
  exists (mkMatrix 2 2 [a; b; one; a]), (fun i j => nth (j * 2 + i) [a; b; one; a] zero).
  split. { apply is_mat_intro; auto. intros i j Hi Hj. apply vget_ok. simpl length. lia. }
  split. { intros [|[|r]] [|[|c]] Hr Hc; first [lia|split; vm_compute; reflexivity]. }
  split; [|intro pow; vm_compute; reflexivity].
  unfold fval, a, b. cbn. unfold F2R. cbn. lra.
Qed.
Print Assumptions C105_det2_refuted.

(** Larger matrices: up to its sign (see C19 for when that is right) the result is, within a relative error of [gam n], the exact
    determinant of a real matrix g that differs from A by no more than the backward error of the decomposition. *)
Theorem C105_det : forall (pow : f64 -> nat -> f64) (A : matrix f64) n f, (3 <= n)%nat -> is_mat A n n f ->
  (forall r c, (r < n)%nat -> (c < n)%nat -> fvalid (f r c)) ->
  (forall k, pow (neg one) k = one \/ pow (neg one) k = neg one) ->
  exists d l u s t, dec_lu A = Ret (Ok d) /\ is_mat (lu_l d) n n l /\ is_mat (lu_u d) n n u /\ is_mat (lu_p d) n n (perm_fun s) /\ perm_on n s /\
    mdet pow A = Ret t /\
    ((forall i j, (i < n)%nat -> (j < n)%nat -> ffin (l i j) = true /\ ffin (u i j) = true) ->
     (forall k, (k < n)%nat -> fval (u k k) <> 0) -> ffin t = true ->
     exists g : nat -> nat -> R,
       (forall r c, (r < n)%nat -> (c < n)%nat ->
         Rabs (fval (f (s r) c) - g (s r) c) <=
           gam n * rsum n (fun k => Rabs (fval (l r k) * fval (u k c))) + (INR n + Rabs (fval (u c c))) * eta64 * (1 + uro) ^ n) /\
       forall D, is_det R_ops n D ->
         Rabs (Rabs (fval t) - Rabs (D g)) <= gam n * Rabs (D g) + eta64 * (1 + uro) ^ n * tails n (fun k => fval (u k k))).
Proof. exact mdet_err. Qed.
Print Assumptions C105_det.
Definition exD : matrix f64 := mkMatrix 3 3 [i64 1; i64 3; i64 2; i64 7; i64 4; div (i64 1) (i64 10); i64 (-2); i64 5; i64 6].
Example C105_det_ex : exists d t, dec_lu exD = Ret (Ok d) /\ mdet (fun x k => if Nat.even k then one else x) exD = Ret t /\ ffin t = true /\
  (forall i j, (i < 3)%nat -> (j < 3)%nat -> exists y z, mget (lu_l d) i j = Ret y /\ mget (lu_u d) i j = Ret z /\ ffin y = true /\ ffin z = true) /\
  forall k, (k < 3)%nat -> exists p, mget (lu_u d) k k = Ret p /\ fval p <> 0.
Proof.
  eexists _, _. split; [vm_compute; reflexivity|]. split; [vm_compute; reflexivity|]. split; [vm_compute; reflexivity|]. split.
  - intros [|[|[|i]]] [|[|[|j]]] Hi Hj; first [lia|eexists _, _; split; [vm_compute; reflexivity|]; split; [vm_compute; reflexivity|]; split; vm_compute; reflexivity].
  - intros [|[|[|i]]] Hi; [..|lia]; (eexists; split; [vm_compute; reflexivity|]; apply fnz; vm_compute; reflexivity).
Qed.
