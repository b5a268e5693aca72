(** Property theorems C111: Newton's method in f64, one equation.

    Reading guide.  [fgood a]: a is a finite f64 number, [fval a] its real value; [uro] = 2^-53, [eta64] = 2^-1075.
    [evaluates_near func F r rho eps]: within rho of r the user's f64 code computes F up to eps.
    [regular_root F J r rho m K]: within rho of the root r, |J| >= m and |F(x) - J(x) (x - r)| <= K (x - r)^2.
    [length_usable pw B theta]: the computed length of a one-component vector is right up to a factor of two and theta.
    [newton_bound a b c e k]: the k-th term of e, a e^2 + b e + c, ...  [find_root] with one equation works on 1 x 1 matrices. *)
From Coq Require Import ZArith Arith Reals Lra Lia List SpecFloat.
From Flocq Require Import Core.
From Verif Require Import Outcome Scalar RealOps Matrix_model Vector_model LU_model Optim_model F64_spec F64Cplx_spec F64Newton_spec F64Err_proofs F64Newton_proofs F64NewtonEx_proofs.
Import ListNotations.
Local Open Scope R_scope.

(** * C111 *)
(** Started within rho of the root, find_root never panics; the error of the iterates obeys the recursion e -> al e^2 + be e + c, where c is the error
    of func divided by the derivative plus one rounding of the root; what it returns is as close to the root as tolerance and c allow;
    and it does return if the tolerance is above the level that the iterates reach. *)
Theorem C111_newton : forall pw func jac F J r rho m K ef ej al be c theta tol,
  regular_root F J r rho m K -> evaluates_near func F r rho ef -> evaluates_near jac J r rho ej ->
  0 <= K -> 0 <= ef -> 0 <= ej -> ej < m -> Rabs r + 4 * rho <= bpow radix2 1000 ->
  length_usable pw (4 * rho) theta -> fgood tol ->
  (1 + uro) ^ 2 * K / (m - ej) <= al -> (1 + uro) ^ 2 * ej / (m - ej) + 2 * uro <= be ->
  (1 + uro) ^ 2 * ef / (m - ej) + 2 * eta64 + uro * Rabs r <= c ->
  al * rho + be <= 1 / 2 -> 2 * c <= rho ->
  forall iters a0, fgood a0 -> Rabs (fval a0 - r) <= rho ->
  exists res, @find_root f64 F64_ops (F64_pops pw) iters tol func jac (mkMatrix 1 1 [a0]) = Ret res /\
    (forall x, res = Ok x -> exists a, x = mkMatrix 1 1 [a] /\ fgood a /\ Rabs (fval a - r) <= 6 * (fval tol + theta) + 2 * c) /\
    (forall N, (N < iters)%nat -> 4 * newton_bound al be c (Rabs (fval a0 - r)) N + 3 * c + theta < fval tol -> exists x, res = Ok x).
Proof. exact newton_f64. Qed.
Print Assumptions C111_newton.
(** The bound is at least halved in every step until it reaches 2 c. *)
Theorem C111_bound : forall al be c e rho, 0 <= al -> 0 <= be -> 0 <= c -> 0 <= e <= rho -> al * rho + be <= 1 / 2 -> 2 * c <= rho ->
  forall k, 0 <= newton_bound al be c e k <= (1 / 2) ^ k * e + 2 * c.
Proof. exact newton_bound_linear. Qed.
Print Assumptions C111_bound.
(** The computed length is usable when powf(x, 2) is the rounded product and powf(x, 1/2) the rounded square root. *)
Theorem C111_length : length_usable root_pow (bpow radix2 500) (bpow radix2 (-500)).
Proof. exact root_usable. Qed.
Print Assumptions C111_length.
(** x^2 = 2 from 3/2 with tolerance 2^-40: within ten iterations a number within 2^-37 of the root is returned. *)
Example C111_example : exists a, @find_root f64 F64_ops (F64_pops root_pow) 10 f_tol root2_func root2_jac (mkMatrix 1 1 [f_3_2]) = Ret (Ok (mkMatrix 1 1 [a])) /\
  fgood a /\ Rabs (fval a - sqrt 2) <= / 2 ^ 37.
Proof.
  pose proof uro_val as UV. pose proof eta64_pos as E0. pose proof sqrt2_bounds as SB. pose proof th_small as TH. destruct f_tol_val as (Gt & Vt). destruct f_3_2_val as (Ga & Va).
  assert (ET : eta64 <= / 2 ^ 60) by (eapply Rle_trans; [apply bpow_le|exact TH]; lia).
  destruct (C111_newton root_pow root2_func root2_jac (fun x => x * x - 2) (fun x => 2 * x) (sqrt 2) (1 / 4) 2 1 (/ 2 ^ 50) (/ 2 ^ 50) (51 / 100) (/ 2 ^ 48) (/ 2 ^ 48) (bpow radix2 (-500)) f_tol)
    with (iters := 10%nat) (a0 := f_3_2) as (res & E & HA & HN); try lra; try assumption.
  - exact root2_regular.
  - exact root2_evaluates.
  - exact root2_jac_evaluates.
  - rewrite Rabs_pos_eq by lra. apply Rle_trans with (bpow radix2 2); [change (bpow radix2 2) with 4; lra|apply bpow_le; lia].
  - apply (usable_less _ (bpow radix2 500)); [apply Rle_trans with (bpow radix2 0); [change (bpow radix2 0) with 1; lra|apply bpow_le; lia]|exact C111_length].
  - rewrite UV. lra.
  - rewrite UV. lra.
  - rewrite Rabs_pos_eq by lra. rewrite UV. lra.
  - rewrite Va, Rabs_pos_eq; lra.
  - destruct (HN 5%nat ltac:(lia)) as (x & ->). { pose proof root2_bound. rewrite Vt. lra. }
    destruct (HA x eq_refl) as (a & -> & G & B). exists a. split; [exact E|]. split; [exact G|]. rewrite Vt in B. lra.
Qed.
(** A tolerance below the level of the rounding errors is never met: for x^2 = 2 and the tolerance 2^-53 the two f64 neighbours of the root are visited
    in turn, and Err is returned however many iterations are allowed. *)
Theorem C111_tolerance_refuted : forall iters,
  @find_root f64 F64_ops (F64_pops root_pow) iters tol_53 root2_func root2_jac (mkMatrix 1 1 [f_3_2]) = Ret Err.
Proof. exact never_ok. Qed.
Print Assumptions C111_tolerance_refuted.
