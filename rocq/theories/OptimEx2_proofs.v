(** A two-dimensional linear problem used as an example for C48-C53 and C68:
    A = ((3,1),(1,2)), b = (5,5), with solution (1,2). *)
From Coq Require Import Arith Lia List Bool ZArith Reals Lra Psatz.
From Verif Require Import Outcome Scalar RealOps Matrix_model Transpose_model Transpose_proofs Vector_model Matrix_spec Matrix_proofs Vector_proofs LU_model LU_spec LUProps_proofs Decomp_model Decomp_spec Sums Ortho_proofs DecompProps_proofs Ode_model OdeOrder_proofs OdeConseq_proofs Optim_model Optim_spec Newton_proofs Descent_proofs CG_proofs LM_proofs OptimEx_proofs.
Import ListNotations.
Local Open Scope R_scope.

(** The functions of the four entries a b c d (by columns) of a 2x2 matrix, and of the entries of a pair. *)
Definition m2 (a b c d : R) (i j : nat) : R := nth (j * 2 + i) [a; b; c; d] 0.
Definition v2 (a b : R) (i : nat) : R := nth i [a; b] 0.

Lemma is_m2 a b c d : is_mat (mkMatrix 2 2 [a; b; c; d]) 2 2 (m2 a b c d).
Proof. split; [reflexivity|]. split; [reflexivity|]. intros i j Hi Hj. destruct i as [|[|i]]; try lia; (destruct j as [|[|j]]; try lia); reflexivity. Qed.
Lemma is_v2 a b : is_col (mkMatrix 2 1 [a; b]) 2 (v2 a b).
Proof. split; [reflexivity|]. split; [reflexivity|]. intros i j Hi Hj. destruct i as [|[|i]]; try lia; (destruct j as [|j]; try lia); reflexivity. Qed.
Lemma sum2 (f : nat -> R) : sumn 2 f = f 0%nat + f 1%nat.
Proof. rewrite !sumR_S. change (sumn 0 f) with 0. ring. Qed.
Lemma mv_2 A x i : mv 2 A x i = A i 0%nat * x 0%nat + A i 1%nat * x 1%nat.
Proof. apply sum2. Qed.
Lemma dot_2 x y : dot 2 x y = x 0%nat * y 0%nat + x 1%nat * y 1%nat.
Proof. apply sum2. Qed.
Lemma sumsq_2 x : sumsq 2 x = x 0%nat * x 0%nat + x 1%nat * x 1%nat.
Proof. apply sum2. Qed.

(** A x - b, b - A x, A, the objective x^T A x / 2 - b^T x + 15/2 and its gradient, as user functions *)
Definition e2_A : nat -> nat -> R := m2 3 1 1 2.
Definition e2_b : nat -> R := v2 5 5.
Definition e2_func (x : vector R) : outcome (vector R) :=
  let! a := vvget x 0 in let! b := vvget x 1 in Ret (mkMatrix 2 1 [3 * a + b - 5; a + 2 * b - 5]).
Definition e2_resid (x : vector R) : outcome (vector R) :=
  let! a := vvget x 0 in let! b := vvget x 1 in Ret (mkMatrix 2 1 [5 - (3 * a + b); 5 - (a + 2 * b)]).
Definition e2_jac (_ : vector R) : outcome (matrix R) := Ret (mkMatrix 2 2 [3; 1; 1; 2]).
Definition e2_obj (x : vector R) : outcome (vector R) :=
  let! a := vvget x 0 in let! b := vvget x 1 in Ret (mkMatrix 1 1 [3 / 2 * (a * a) + a * b + b * b - 5 * a - 5 * b + 15 / 2]).
Definition e2_grad (x : vector R) : outcome (matrix R) :=
  let! a := vvget x 0 in let! b := vvget x 1 in Ret (mkMatrix 1 2 [3 * a + b - 5; a + 2 * b - 5]).

Ltac e2_get H := rewrite (col_get _ 2 _ 0 H), (col_get _ 2 _ 1 H) by lia; cbn [bind]; eexists; split; [reflexivity|];
  split; [reflexivity|]; split; [reflexivity|]; let i := fresh "i" in let j := fresh "j" in intros i j ? ?;
  destruct i as [|[|i]]; try lia; (destruct j as [|[|j]]; try lia); rewrite ?mv_2, ?dot_2, ?mv_2; cbv [e2_A e2_b m2 v2 nth Nat.mul Nat.add]; cbn; f_equal; try lra.
Lemma e2_func_computes : computes e2_func 2 2 (fun g i => mv 2 e2_A g i - e2_b i).
Proof. intros x g H. unfold e2_func. e2_get H. Qed.
Lemma e2_resid_computes : computes e2_resid 2 2 (fun g i => e2_b i - mv 2 e2_A g i).
Proof. intros x g H. unfold e2_resid. e2_get H. Qed.
Lemma e2_jac_computes : computes_mat e2_jac 2 2 2 (fun _ => e2_A).
Proof. intros x g H. eexists. split; [reflexivity|]. apply is_m2. Qed.
Lemma e2_obj_computes : computes e2_obj 2 1 (fun g _ => 1 / 2 * dot 2 g (mv 2 e2_A g) - dot 2 e2_b g + 15 / 2).
Proof. intros x g H. unfold e2_obj. e2_get H. Qed.
Lemma e2_grad_computes : computes_mat e2_grad 2 1 2 (fun g _ i => mv 2 e2_A g i - e2_b i).
Proof. intros x g H. unfold e2_grad. e2_get H. Qed.
Lemma e2_symmetric : symmetric 2 e2_A.
Proof. intros i j Hi Hj. destruct i as [|[|i]]; try lia; (destruct j as [|[|j]]; try lia); reflexivity. Qed.
Lemma e2_pos_def : pos_def 2 e2_A.
Proof.
  intros x (i & Hi & Hx). unfold quad. rewrite !sum2. cbv [e2_A m2 nth Nat.mul Nat.add].
  assert (0 < x 0%nat * x 0%nat \/ 0 < x 1%nat * x 1%nat) as [H|H].
  { destruct i as [|[|i]]; try lia; [left|right]; change (0 < Rsqr (x 0%nat)) || change (0 < Rsqr (x 1%nat)); apply Rlt_0_sqr; exact Hx. }
  - pose proof (Rle_0_sqr (x 0%nat + x 1%nat)) as K. pose proof (Rle_0_sqr (x 1%nat)) as K2. unfold Rsqr in *. lra.
  - pose proof (Rle_0_sqr (x 0%nat + x 1%nat)) as K. pose proof (Rle_0_sqr (x 0%nat)) as K2. unfold Rsqr in *. lra.
Qed.
Lemma dominant2 (A : matrix R) f : is_mat A 2 2 f -> Rabs (f 1%nat 0%nat) < f 0%nat 0%nat -> Rabs (f 0%nat 1%nat) < f 1%nat 1%nat -> solver_ok A 2 f.
Proof.
  intros HA H0 H1. apply (regular_solver_ok A 2 f HA). apply (dd_regular A 2 f HA). intros c Hc. rewrite sum2.
  destruct c as [|[|c]]; [| |lia]; cbn [Nat.eqb]; lra.
Qed.
Lemma e2_solver (A : matrix R) : is_mat A 2 2 e2_A -> solver_ok A 2 e2_A.
Proof. intros HA. apply dominant2; [exact HA| |]; cbv [e2_A m2 nth Nat.mul Nat.add]; rewrite Rabs_right; lra. Qed.
Lemma e2_jac_solver (x : vector R) (A : matrix R) : e2_jac x = Ret A -> solver_ok A 2 e2_A.
Proof. intros E. injection E as <-. apply e2_solver, is_m2. Qed.
Lemma e2_lm_solver mu (A : matrix R) : 0 < mu -> is_mat A 2 2 (jtj_damped 2 e2_A mu) -> solver_ok A 2 (jtj_damped 2 e2_A mu).
Proof.
  intros Hm HA. pose proof (Rmult_lt_0_compat mu mu Hm Hm). apply dominant2; [exact HA| |]; unfold jtj_damped; rewrite !sum2;
  cbv [e2_A m2 nth Nat.mul Nat.add delta Nat.eqb]; cbn [one zero R_ops]; rewrite Rabs_right; lra.
Qed.
Lemma e2_solution i : (i < 2)%nat -> mv 2 e2_A (v2 1 2) i = e2_b i.
Proof. intros Hi. rewrite mv_2. destruct i as [|[|i]]; try lia; cbv [e2_A e2_b m2 v2 nth Nat.mul Nat.add]; lra. Qed.

(** The objective along the gradient, and the Polyak-Lojasiewicz inequality, with L = 4 and mu = 1 *)
Lemma e2_smooth (g : nat -> R) t : 0 <= t <= 1 ->
  let F g := 1 / 2 * dot 2 g (mv 2 e2_A g) - dot 2 e2_b g + 15 / 2 in let J g i := mv 2 e2_A g i - e2_b i in
  F (fun i => g i - t * J g i) <= F g - t * sumsq 2 (J g) + 4 / 2 * (t * t) * sumsq 2 (J g).
Proof.
  intros Ht F J. unfold F, J. rewrite !dot_2, !mv_2, sumsq_2, !mv_2. cbv [e2_A e2_b m2 v2 nth Nat.mul Nat.add].
  set (p := 3 * g 0%nat + 1 * g 1%nat - 5). set (q := 1 * g 0%nat + 2 * g 1%nat - 5).
  enough (0 <= t * t * (1 / 2 * (p * p) - p * q + q * q)) by (unfold p, q in *; lra).
  apply Rmult_le_pos; [nra|]. pose proof (Rle_0_sqr (p - q)). pose proof (Rle_0_sqr q). unfold Rsqr in *. lra.
Qed.
Lemma e2_pl (g : nat -> R) : 2 * 1 * (1 / 2 * dot 2 g (mv 2 e2_A g) - dot 2 e2_b g + 15 / 2 - 0) <= sumsq 2 (fun i => mv 2 e2_A g i - e2_b i).
Proof.
  rewrite !dot_2, !mv_2, sumsq_2, !mv_2. cbv [e2_A e2_b m2 v2 nth Nat.mul Nat.add].
  set (p := g 0%nat - 1). set (q := g 1%nat - 2).
  assert (0 <= 7 * (p * p) + 8 * (p * q) + 3 * (q * q)).
  { pose proof (Rle_0_sqr (7 * p + 4 * q)). pose proof (Rle_0_sqr q). unfold Rsqr in *. lra. }
  unfold p, q in *. lra.
Qed.
Lemma e2_rho y : 1 / 5 * sumsq 2 (mv 2 e2_A y) <= dot 2 y (mv 2 e2_A y).
Proof.
  rewrite !dot_2, sumsq_2, !mv_2. cbv [e2_A m2 nth Nat.mul Nat.add].
  pose proof (Rle_0_sqr (y 0%nat)). pose proof (Rle_0_sqr (y 1%nat)). unfold Rsqr in *. lra.
Qed.
Lemma e2_nonneg y : 0 <= dot 2 y (mv 2 e2_A y).
Proof.
  rewrite !dot_2, !mv_2. cbv [e2_A m2 nth Nat.mul Nat.add].
  pose proof (Rle_0_sqr (y 0%nat)). pose proof (Rle_0_sqr (y 0%nat + y 1%nat)). pose proof (Rle_0_sqr (y 1%nat)). unfold Rsqr in *. lra.
Qed.
(** an upper triangular system, for Gauss-Newton and the pseudoinverse: 2 x + y = 4, 4 y = 8 *)
Definition e2_ujac (_ : vector R) : outcome (matrix R) := Ret (mkMatrix 2 2 [2; 0; 1; 4]).
Definition e2_ufunc (x : vector R) : outcome (vector R) :=
  let! a := vvget x 0 in let! b := vvget x 1 in Ret (mkMatrix 2 1 [2 * a + b - 4; 4 * b - 8]).
Lemma e2_ufunc_computes : computes e2_ufunc 2 2 (fun g i => mv 2 (m2 2 0 1 4) g i - v2 4 8 i).
Proof. intros x g H. unfold e2_ufunc. e2_get H. Qed.
Lemma e2_ujac_computes : computes_mat e2_ujac 2 2 2 (fun _ => m2 2 0 1 4).
Proof. intros x g H. eexists. split; [reflexivity|]. apply is_m2. Qed.
Lemma e2_uqr (A : matrix R) : is_mat A 2 2 (m2 2 0 1 4) ->
  exists Q Rm fr, dec_qr A = Ret (Q, Rm) /\ is_mat Rm 2 2 fr /\ forall k, (k < 2)%nat -> fr k k <> 0.
Proof.
  intros HA. destruct (dec_qr_upper R R_ops R_pops A 2 2 (m2 2 0 1 4)) as (I & _ & E); auto.
  - apply R_eqb_true. reflexivity.
  - intros i j Hi Hj. destruct i as [|[|i]]; try lia; (destruct j as [|[|j]]; try lia); reflexivity.
  - exists I, A, (m2 2 0 1 4). split; [exact E|]. split; [exact HA|]. intros k Hk. destruct k as [|[|k]]; try lia; cbv [m2 nth Nat.mul Nat.add]; lra.
Qed.
(** two measurements (1, 2) of one unknown x with weights 1 and 2: residuals x - 1 and 2 x - 6 *)
Definition e2_fit (x : vector R) : outcome (vector R) := let! a := vvget x 0 in Ret (mkMatrix 2 1 [a - 1; 2 * a - 6]).
Definition e2_fitjac (_ : vector R) : outcome (matrix R) := Ret (mkMatrix 2 1 [1; 2]).
Lemma e2_fit_computes : computes e2_fit 1 2 (fun g => v2 (g 0%nat - 1) (2 * g 0%nat - 6)).
Proof. intros x g H. unfold e2_fit. rewrite (col_get _ 1 _ 0 H) by lia. cbn [bind]. eexists. split; [reflexivity|]. apply is_v2. Qed.
Lemma e2_fitjac_computes : computes_mat e2_fitjac 1 2 1 (fun _ i _ => v2 1 2 i).
Proof. intros x g H. eexists. split; [reflexivity|]. exact (is_v2 1 2). Qed.
(** x' = A x + (1,1) *)
Definition e2_ode (_ : R) (x : vector R) : outcome (vector R) :=
  let! a := vvget x 0 in let! b := vvget x 1 in Ret (mkMatrix 2 1 [3 * a + b + 1; a + 2 * b + 1]).
Definition e2_odejac (_ : R) : vector R -> outcome (matrix R) := e2_jac.
Lemma e2_ode_computes t : computes (e2_ode t) 2 2 (fun g i => mv 2 e2_A g i + v2 1 1 i).
Proof. intros x g H. unfold e2_ode. e2_get H. Qed.
Lemma e2_odejac_computes t : computes_mat (e2_odejac t) 2 2 2 (fun _ => e2_A).
Proof. exact e2_jac_computes. Qed.
Lemma e2_ode_solver (A : matrix R) : is_mat A 2 2 (fun i j => e2_A i j * 2 - delta i j) -> solver_ok A 2 (fun i j => e2_A i j * 2 - delta i j).
Proof.
  intros HA. apply dominant2; [exact HA| |]; cbv [e2_A m2 nth Nat.mul Nat.add delta Nat.eqb]; cbn [one zero R_ops]; rewrite Rabs_right; lra.
Qed.
Lemma e2_deriv_grad (g : nat -> R) :
  let F g := 1 / 2 * dot 2 g (mv 2 e2_A g) - dot 2 e2_b g + 15 / 2 in let J g i := mv 2 e2_A g i - e2_b i in
  derivable_pt_lim (fun t => F (fun i => g i - t * J g i)) 0 (- sumsq 2 (J g)).
Proof.
  intros F J eps He. set (q := 1 / 2 * dot 2 (J g) (mv 2 e2_A (J g))). pose proof (Rabs_pos q) as Hq.
  assert (Hd : 0 < eps / (Rabs q + 1)) by (apply Rdiv_lt_0_compat; lra).
  exists (mkposreal _ Hd). intros h Hh Hlt. cbn [pos] in Hlt.
  assert (E : (F (fun i => g i - (0 + h) * J g i) - F (fun i => g i - 0 * J g i)) / h - - sumsq 2 (J g) = q * h).
  { unfold q, F. rewrite !dot_2, !mv_2, sumsq_2. unfold J. rewrite !mv_2. cbv [e2_A e2_b m2 v2 nth Nat.mul Nat.add]. field. exact Hh. }
  rewrite E, Rabs_mult. apply Rle_lt_trans with ((Rabs q + 1) * Rabs h); [apply Rmult_le_compat_r; [apply Rabs_pos|lra]|].
  apply Rlt_le_trans with ((Rabs q + 1) * (eps / (Rabs q + 1))); [apply Rmult_lt_compat_l; lra|]. right. field. lra.
Qed.
