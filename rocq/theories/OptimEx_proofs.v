(** Concrete problems used as examples and counterexamples for C48-C53 and C68. *)
From Coq Require Import Arith Lia List Bool ZArith Reals Lra Psatz SpecFloat QArith Qcanon.
From Verif Require Import Outcome Scalar RealOps Matrix_model Transpose_model Transpose_proofs Vector_model Matrix_spec Matrix_proofs Vector_proofs LU_model LU_spec Decomp_model Decomp_spec Sums Ortho_proofs DecompProps_proofs QcCompute Ode_model OdeOrder_proofs OdeConseq_proofs Optim_model Optim_spec Newton_proofs Descent_proofs CG_proofs LM_proofs.
Import ListNotations.
Local Close Scope Q_scope.
Local Open Scope R_scope.

Lemma Rabs_le_inv a b : Rabs a <= b -> - b <= a <= b.
Proof. intros H. unfold Rabs in H. destruct (Rcase_abs a); lra. Qed.
Lemma enorm_1 u : enorm 1 u = Rabs (u 0%nat).
Proof.
  unfold enorm, sumsq. rewrite sumR_S. change (sumn 0 (fun i => u i * u i)) with 0. rewrite Rplus_0_l.
  change (u 0%nat * u 0%nat) with (Rsqr (u 0%nat)). apply sqrt_Rsqr_abs.
Qed.
Lemma mv_1 A x i : mv 1 A x i = A i 0%nat * x 0%nat.
Proof. unfold mv. rewrite sumR_S. change (sumn 0 (fun k => A i k * x k)) with 0. ring. Qed.
Lemma dot_1 x y : dot 1 x y = x 0%nat * y 0%nat.
Proof. unfold dot. rewrite sumR_S. change (sumn 0 (fun k => x k * y k)) with 0. ring. Qed.
Lemma sumsq_1 x : sumsq 1 x = x 0%nat * x 0%nat.
Proof. unfold sumsq. rewrite sumR_S. change (sumn 0 (fun k => x k * x k)) with 0. ring. Qed.

(** x^2 - 2 and its derivative *)
Definition sq2_func (x : vector R) : outcome (vector R) := let! a := vvget x 0 in Ret (mkMatrix 1 1 [a * a - 2]).
Definition sq2_jac (x : vector R) : outcome (matrix R) := let! a := vvget x 0 in Ret (mkMatrix 1 1 [2 * a]).
Lemma sq2_computes : computes sq2_func 1 1 (fun g _ => g 0%nat * g 0%nat - 2).
Proof. intros x g H. unfold sq2_func. rewrite (col_get x 1 g 0 H) by lia. cbn [bind]. eexists. split; [reflexivity|]. apply tan_col. Qed.
Lemma sq2_jac_computes : computes_mat sq2_jac 1 1 1 (fun g _ _ => 2 * g 0%nat).
Proof. intros x g H. unfold sq2_jac. rewrite (col_get x 1 g 0 H) by lia. cbn [bind]. eexists. split; [reflexivity|]. apply tan_col. Qed.

Lemma sqrt2_lower : 5 / 4 < sqrt 2.
Proof. apply Rsqr_incrst_0; [unfold Rsqr; rewrite sqrt_sqrt; lra|lra|apply sqrt_pos]. Qed.

Lemma find_sqrt2 tol x0 a k : 0 < tol -> is_col x0 1 (fun _ => a) -> Rabs (a - sqrt 2) <= 1 / 4 -> 3 / 8 < tol * 2 ^ k ->
  exists x g, find_root (S k) tol sq2_func sq2_jac x0 = Ret (Ok x) /\ is_col x 1 g /\ Rabs (g 0%nat - sqrt 2) < 2 * tol.
Proof.
  intros Ht Hx Ha Hk. pose proof sqrt2_lower as H2. pose proof (sqrt_sqrt 2 ltac:(lra)) as H3.
  destruct (find_root_local _ _ 1 _ _ sq2_computes sq2_jac_computes (fun _ => sqrt 2) (1/4) 2 1 tol Ht ltac:(lra) ltac:(lra) ltac:(lra)) with (iters := k) (x0 := x0) (g0 := fun _ : nat => a) (e0 := 1/4) as (x & g & E & Hg & Hb).
  - intros x g A Hxg Hr HA. destruct (sq2_jac_computes x g Hxg) as (A' & E & HA'). assert (A' = A) by congruence. subst A'.
    apply (solver_ok_1 A _ HA'). rewrite enorm_1 in Hr. apply Rabs_le_inv in Hr. lra.
  - intros g y Hr. rewrite !enorm_1 in *. rewrite mv_1, Rabs_mult. apply Rmult_le_compat_r; [apply Rabs_pos|].
    apply Rabs_le_inv in Hr. rewrite Rabs_right; lra.
  - intros g Hr. rewrite !enorm_1 in *. rewrite mv_1, <- Rsqr_abs.
    replace (g 0%nat * g 0%nat - 2 - 2 * g 0%nat * (g 0%nat - sqrt 2)) with (- Rsqr (g 0%nat - sqrt 2)) by (unfold Rsqr; lra).
    rewrite Rabs_Ropp, Rabs_right by (apply Rle_ge, Rle_0_sqr). lra.
  - exact Hx.
  - rewrite enorm_1. exact Ha.
  - lra.
  - lra.
  - exists x, g. rewrite enorm_1 in Hb. auto.
Qed.

(** x^2 with the wrong Hessian 1/2, over the rationals *)
Definition qsq_func (x : vector Qc) : outcome (vector Qc) := let! a := vvget x 0 in Ret (mkMatrix 1 1 [(a * a)%Qc]).
Definition qsq_jac (x : vector Qc) : outcome (matrix Qc) := let! a := vvget x 0 in Ret (mkMatrix 1 1 [(qz 2 * a)%Qc]).
Definition qsq_hess (_ : vector Qc) : outcome (matrix Qc) := Ret (mkMatrix 1 1 [qf 1 2]).
Lemma newton_wrong (P : POps Qc) : (let! r := newton_min 1 0 (qz (-1)) (qz 1) qsq_func qsq_jac qsq_hess (mkMatrix 1 1 [qz 1]) in
  match r with Some v => Ret v | None => Panic end) = Ret (mkMatrix 1 1 [qz (-3)]).
Proof. qcompute. Qed.

Lemma mpinv_32 (P : POps Qc) : mpinv (mkMatrix 3 2 [qz 1; qz 0; qz 0; qz 1; qz 1; qz 0]) =
  (let A := mkMatrix 3 2 [qz 1; qz 0; qz 0; qz 1; qz 1; qz 0] in
   let! rt := mtranspose A in let! x := subst_forward_mat rt rt in subst_backward_mat A x).
Proof.
  unfold mpinv. destruct (dec_qr_upper Qc Qc_ops P (mkMatrix 3 2 [qz 1; qz 0; qz 0; qz 1; qz 1; qz 0]) 3 2
   (fun i j => nth (j * 3 + i) [qz 1; qz 0; qz 0; qz 1; qz 1; qz 0] (qz 0))) as (I & _ & E); [reflexivity| |lia|lia| |rewrite E].
  - split; [reflexivity|]. split; [reflexivity|]. intros i j Hi Hj. destruct i as [|[|[|i]]]; [| | |lia]; (destruct j as [|[|j]]; [| |lia]); reflexivity.
  - intros i j Hi Hj. destruct i as [|[|[|i]]]; try lia; (destruct j as [|[|j]]; try lia); reflexivity.
  - cbn [bind fst snd]. reflexivity.
Qed.

(** The scalar linear equation x' = lam x + c with lam <= 0: an implicit Euler step always succeeds. *)
Section IEscalar.
Variables (f : R -> vector R -> outcome (vector R)) (jac : R -> vector R -> outcome (matrix R)) (lam c : R).
Hypothesis HG : forall t, computes (f t) 1 1 (fun z _ => lam * z 0%nat + c).
Hypothesis HJ : forall t, computes_mat (jac t) 1 1 1 (fun _ _ _ => lam).
Hypothesis Hl : lam <= 0.

Lemma ie_step_scalar iters tol t x a h : is_col x 1 (fun _ => a) -> 0 < tol -> (2 <= iters)%nat -> 0 <= h ->
  exists z b, ie_step iters tol f jac t x h = Ret z /\ is_col z 1 (fun _ => b) /\
    (b = (a + h * c) / (1 - h * lam) \/ (b = a /\ Rabs (a - (a + h * c) / (1 - h * lam)) < tol)).
Proof.
  intros Hx Ht Hi Hh. assert (Hd : 0 < 1 - h * lam) by nra. set (s := (a + h * c) / (1 - h * lam)).
  assert (Hs : s = a + h * (lam * s + c)) by (subst s; field; lra).
  destruct (ie_step_linear f jac 1 _ _ HG HJ iters tol t x _ h (fun _ _ => lam) (fun _ => c) (fun _ => s) Hx Ht Hi) as (z & gz & E & Hz & Hor).
  - reflexivity.
  - intros t' z i Hi'. rewrite mv_1. reflexivity.
  - intros A HA. assert (HA' : is_mat A 1 1 (fun _ _ => lam * h - 1)).
    { revert HA. apply is_mat_ext. intros i j H1 H2. replace i with 0%nat by lia. replace j with 0%nat by lia. reflexivity. }
    intros b g Hb. destruct (solver_ok_1 A _ HA' ltac:(nra) b g Hb) as (w & y & Ew & Hw & H1 & H2). exists w, y. split; [exact Ew|]. split; [exact Hw|].
    split; [intros i H; specialize (H1 i H); rewrite mv_1 in *; replace i with 0%nat in * by lia; exact H1|].
    intros y' H i H'. apply H2; [|exact H']. intros k Hk. specialize (H k Hk). rewrite mv_1 in *; replace k with 0%nat in * by lia; exact H.
  - intros i H. rewrite mv_1. exact Hs.
  - assert (Hz' : is_col z 1 (fun _ => gz 0%nat)) by (revert Hz; apply is_mat_ext; intros i j H1 H2; replace i with 0%nat by lia; reflexivity).
    exists z, (gz 0%nat). split; [exact E|]. split; [exact Hz'|].
    destruct Hor as [H|(Hzx & H)]; [left; apply (H 0%nat); lia|right]. subst z.
    rewrite enorm_1 in H. split; [|exact H]. symmetry. exact (is_mat_entry_unique x 1 1 _ _ 0 0 Hx Hz' ltac:(lia) ltac:(lia)).
Qed.
End IEscalar.

Lemma implicit_decay lam h a : lam <= 0 -> 0 <= h -> Rabs ((a + h * 0) / (1 - h * lam)) <= Rabs a.
Proof.
  intros Hl Hh. assert (1 <= 1 - h * lam) by nra. rewrite Rmult_0_r, Rplus_0_r. unfold Rdiv. rewrite Rabs_mult, Rabs_inv, (Rabs_right (1 - h * lam)) by lra.
  rewrite <- (Rmult_1_r (Rabs a)) at 2. apply Rmult_le_compat_l; [apply Rabs_pos|]. rewrite <- Rinv_1. apply Rinv_le_contravar; lra.
Qed.

(** 2 x = 4 and its f64 residual function, for conjugate gradients *)
Definition f64_2x (x : vector f64) : outcome (vector f64) :=
  let! a := mmul_vec (mkMatrix 1 1 [of_Z 2]) x in vsub (mkMatrix 1 1 [of_Z 4]) a.
Definition f64_2x_jac (_ : vector f64) : outcome (matrix f64) := Ret (mkMatrix 1 1 [of_Z 2]).

(** Three residuals (0, x1 - 1, x0) of two unknowns, for Levenberg-Marquardt *)
Definition f64_res (x : vector f64) : outcome (vector f64) :=
  let! a := vvget x 0 in let! b := vvget x 1 in Ret (mkMatrix 3 1 [zero; sub b one; a]).
Definition f64_res_jac (_ : vector f64) : outcome (matrix f64) := Ret (mkMatrix 3 2 [zero; zero; one; zero; one; zero]).
