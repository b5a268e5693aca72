(** Property theorems C100: the QR decomposition in binary64.

    Reading guide.  [fvalid], [ffin], [fval], [uro] = 2^-53, [gam n] = (1 + uro)^n - 1: F64_spec.v.  [is_mat A m n a]: A is an
    m x n matrix with entries [a i j]; [rsum n f] is the real sum f 0 + ... + f (n-1).  The code takes its square root with
    [powf(1/2)], [pw] here; [sqrt_good k] (F64QR_spec.v) says that it has a relative error of about k/2 units in the last place.
    [qr_pairs pw A ok]: every pair (a_jj, a_ij) that the run on A looks at satisfies ok.  [pair_large]: one of the two is zero, or
    one is at least 2^-500 in size; [pair_eliminated]: a_ij is zero, or a_jj is not and one of the two is at least 2^-500. *)
From Coq Require Import Arith Lia List Bool ZArith Reals Lra SpecFloat.
From Flocq Require Import Core.
From Verif Require Import Outcome Scalar RealOps Matrix_model Decomp_model Matrix_spec F64_spec F64QR_spec F64Err_proofs F64QR_proofs F64QREx_proofs F64QRCol_proofs.
Import ListNotations.
Local Open Scope R_scope.

(** * C100: Q is orthogonal and Q R = A up to (k + 16) m n rounding errors; W y bounds the Euclidean norm of column y *)
Theorem C100_qr : forall pw k (A : matrix f64) m n a W, sqrt_good k (fun x => pw x (@half f64 (F64_pops pw))) ->
  is_mat A m n a -> (n <= m)%nat -> (0 < m)%nat -> gam ((k + 16) * (m * n)) <= / 100 ->
  (forall l y, (l < m)%nat -> (y < n)%nat -> fvalid (a l y) /\ ffin (a l y) = true) ->
  (forall y, (y < n)%nat -> bpow radix2 (-900) <= W y <= bpow radix2 500 /\ rsum m (fun l => fval (a l y) * fval (a l y)) <= W y * W y) ->
  qr_pairs pw A pair_large ->
  exists Q Rm q r, @dec_qr f64 F64_ops (F64_pops pw) A = Ret (Q, Rm) /\ is_mat Q m m q /\ is_mat Rm m n r /\
    (forall x l, (x < m)%nat -> (l < m)%nat -> fvalid (q x l) /\ ffin (q x l) = true) /\
    (forall l y, (l < m)%nat -> (y < n)%nat -> fvalid (r l y) /\ ffin (r l y) = true) /\
    (forall x y, (x < m)%nat -> (y < m)%nat ->
       Rabs (rsum m (fun l => fval (q x l) * fval (q y l)) - (if (x =? y)%nat then 1 else 0)) <= gam ((k + 16) * (m * n))) /\
    (forall x y, (x < m)%nat -> (y < n)%nat ->
       Rabs (rsum m (fun l => fval (q x l) * fval (r l y)) - fval (a x y)) <= gam ((k + 16) * (m * n)) * W y) /\
    (qr_pairs pw A pair_eliminated -> forall y, (y < n)%nat ->
       rsum m (fun l => if (y <? l)%nat then fval (r l y) ^ 2 else 0) <= 2 * INR m * (4 * uro * W y) ^ 2).
Proof. exact qr_f64. Qed.
Print Assumptions C100_qr.

(** The columns of Q are orthonormal too, up to m times the same error, and R is Q^T A. *)
Theorem C100_columns : forall pw k (A : matrix f64) m n a W, sqrt_good k (fun x => pw x (@half f64 (F64_pops pw))) ->
  is_mat A m n a -> (n <= m)%nat -> (0 < m)%nat -> gam ((k + 16) * (m * n)) <= / 100 ->
  (forall l y, (l < m)%nat -> (y < n)%nat -> fvalid (a l y) /\ ffin (a l y) = true) ->
  (forall y, (y < n)%nat -> bpow radix2 (-900) <= W y <= bpow radix2 500 /\ rsum m (fun l => fval (a l y) * fval (a l y)) <= W y * W y) ->
  qr_pairs pw A pair_large ->
  exists Q Rm q r, @dec_qr f64 F64_ops (F64_pops pw) A = Ret (Q, Rm) /\ is_mat Q m m q /\ is_mat Rm m n r /\
    (forall x y, (x < m)%nat -> (y < m)%nat ->
       Rabs (rsum m (fun l => fval (q l x) * fval (q l y)) - (if (x =? y)%nat then 1 else 0)) <= INR m * gam ((k + 16) * (m * n))) /\
    (forall x y, (x < m)%nat -> (y < n)%nat ->
       Rabs (rsum m (fun l => fval (q l x) * fval (a l y)) - fval (r x y)) <=
         INR m * gam ((k + 16) * (m * n)) * rsum m (fun l => Rabs (fval (r l y))) + INR m * (11 / 10 * (gam ((k + 16) * (m * n)) * W y))).
Proof.
  intros pw k A m n a W H1 H2 H3 H4 H5 H6 H7 H8. destruct (qr_f64 pw k A m n a W H1 H2 H3 H4 H5 H6 H7 H8) as (Q & Rm & q & r & E & MQ & MR & _ & _ & O & P & _).
  exists Q, Rm, q, r. split; [exact E|]. split; [exact MQ|]. split; [exact MR|]. split.
  - exact (columns_orthonormal m (fun i j => fval (q i j)) _ (gam_pos _) O).
  - exact (transposed_product m n (fun i j => fval (q i j)) (fun i j => fval (r i j)) (fun i j => fval (a i j)) _ W (conj (gam_pos _) H5) O P).
Qed.
Print Assumptions C100_columns.

(** The hypotheses hold for the columns (1, 3, 5) and (2, 4, 7) with the IEEE square root; all pairs are eliminated. *)
Example C100_example : sqrt_good 2 (fun x => ieee_pow x (@half f64 (F64_pops ieee_pow))) /\ is_mat qr_ex 3 2 qr_ex_ent /\
  gam ((2 + 16) * (3 * 2)) <= / 100 /\ (forall l y, (l < 3)%nat -> (y < 2)%nat -> fvalid (qr_ex_ent l y) /\ ffin (qr_ex_ent l y) = true) /\
  (forall y, (y < 2)%nat -> bpow radix2 (-900) <= 9 <= bpow radix2 500 /\ rsum 3 (fun l => fval (qr_ex_ent l y) * fval (qr_ex_ent l y)) <= 9 * 9) /\
  qr_pairs ieee_pow qr_ex pair_large /\ qr_pairs ieee_pow qr_ex pair_eliminated.
Proof.
  split; [exact sqrt_good_ieee|]. split; [exact qr_ex_mat|]. split; [exact qr_ex_gam|]. split; [exact qr_ex_good|]. split; [exact qr_ex_norm|].
  split; [exact (qr_pairs_mono _ _ _ _ elim_large qr_ex_pairs)|exact qr_ex_pairs].
Qed.

(** Without a bound from above: A = ((2^600, 0), (2^600, 1)) is answered with Q = R = 0, whatever [powf] is, as long as it maps
    infinity to itself: a^2 overflows, so cosine and sine are 0. *)
Theorem C100_overflow_refuted : forall pw, pw (S754_infinity false) (@half f64 (F64_pops pw)) = S754_infinity false ->
  @dec_qr f64 F64_ops (F64_pops pw) (mkMatrix 2 2 [two600; two600; zero; one]) = Ret (mkMatrix 2 2 [zero; zero; zero; zero], mkMatrix 2 2 [zero; zero; zero; zero]).
Proof. exact qr_overflow. Qed.
Print Assumptions C100_overflow_refuted.
Example C100_overflow_example : fval two600 = bpow radix2 600 /\ ieee_pow (S754_infinity false) (@half f64 (F64_pops ieee_pow)) = S754_infinity false.
Proof. split; [|reflexivity]. unfold two600. rewrite fval_fin. change (IZR (cond_Zopp false 4503599627370496)) with (bpow radix2 52). rewrite <- bpow_plus. reflexivity. Qed.

(** Without a bound from below: with entries 3 * 2^-539 the first row of Q has squared length at most 0.6. *)
Theorem C100_underflow_refuted : exists Q Rm, @dec_qr f64 F64_ops (F64_pops ieee_pow) (mkMatrix 2 2 [tiny; tiny; zero; one]) = Ret (Q, Rm) /\
  exists x y, mget Q 0 0 = Ret x /\ mget Q 0 1 = Ret y /\ fval x * fval x + fval y * fval y <= 6 / 10.
Proof. exact qr_underflow. Qed.
Print Assumptions C100_underflow_refuted.
