(** Conjugate gradients: optimality of the iterates and linear convergence in the energy norm. *)
From Coq Require Import Arith List Bool Lia Reals Lra.
From Verif Require Import Outcome Scalar RealOps Matrix_model Vector_model Optim_model
  Matrix_spec Decomp_spec Optim_spec Matrix_proofs Vector_proofs Sums Norm_proofs OdeConseq_proofs Newton_proofs Descent_proofs CG_proofs.
Import ListNotations.
Local Open Scope R_scope.

Section Rate.
Variables (n : nat) (A : nat -> nat -> R) (x0 b s : nat -> R) (K : nat) (X r D : nat -> nat -> R).
Hypothesis Hsym : symmetric n A.
Hypothesis Hpd : pos_def n A.
Hypothesis Hrun : cg_run n A x0 (fun i => b i - mv n A x0 i) K X r D.
Hypothesis Hnz : forall j, (j < K)%nat -> sumsq n (r j) <> 0.
Hypothesis Hsol : forall i, (i < n)%nat -> mv n A s i = b i.
Local Notation E x := (quad n A (fun i => x i - s i)).

Lemma quad_nonneg v : 0 <= quad n A v.
Proof.
  destruct (Req_dec (sumsq n v) 0) as [H|H].
  - rewrite quad_dot. rewrite dot_zero_l; [lra|]. exact (proj1 (sumsq_zero n v) H).
  - left. apply Hpd. now apply sumsq_nz_ex.
Qed.
Lemma energy_move k p : (k <= K)%nat -> E (fun i => X k i + p i) = E (X k) - 2 * dot n p (r k) + quad n A p.
Proof.
  intros Hk. rewrite !quad_dot. set (e := fun i => X k i - s i).
  assert (Ee : forall i, (i < n)%nat -> mv n A e i = - r k i).
  { intros i Hi. rewrite (cg_residual n A x0 b K X r D Hrun k Hk i Hi), <- (Hsol i Hi). unfold e.
    replace (mv n A (fun i0 => X k i0 - s i0) i) with (mv n A (fun i0 => X k i0 + -1 * s i0) i) by (unfold mv; apply sumR_ext; intros; ring). rewrite mv_lin. ring. }
  assert (X1 : dot n (fun i => X k i + p i - s i) (mv n A (fun i => X k i + p i - s i)) = dot n (fun i => e i + 1 * p i) (mv n A (fun i => e i + 1 * p i))).
  { apply dot_ext; intros i Hi; [unfold e; ring|]. unfold mv. apply sumR_ext. intros l Hl. unfold e. ring. }
  rewrite X1, (dot_lin_l n). rewrite (dot_ext n e (mv n A (fun i => e i + 1 * p i)) e (fun i => mv n A e i + 1 * mv n A p i)) by (intros; try apply mv_lin; reflexivity).
  rewrite (dot_ext n p (mv n A (fun i => e i + 1 * p i)) p (fun i => mv n A e i + 1 * mv n A p i)) by (intros; try apply mv_lin; reflexivity).
  rewrite !(dot_lin_r n). rewrite (quad_sym n A Hsym e p).
  rewrite (dot_ext n p (mv n A e) p (fun i => 0 + -1 * r k i)) by (intros; try rewrite Ee by assumption; ring). rewrite (dot_lin_r n).
  replace (dot n p (fun _ => 0)) with 0; [ring|]. rewrite dot_comm. symmetry. now apply dot_zero_l.
Qed.
Lemma span_min k p : (k <= K)%nat -> dot n p (r k) = 0 -> E (X k) <= E (fun i => X k i + p i).
Proof. intros Hk Hp. pose proof (energy_move k p Hk) as EM. cbv beta in EM |- *. rewrite EM, Hp. pose proof (quad_nonneg p). lra. Qed.

Lemma X_span : forall k, (k <= K)%nat -> exists a, forall i, X k i = x0 i + sumn k (fun j => a j * D j i).
Proof.
  destruct Hrun as (HX & _ & _ & Hs). induction k as [|k IH]; intros Hk.
  - exists (fun _ => 0). intros i. rewrite HX. cbn. ring.
  - destruct (IH ltac:(lia)) as (a & Ha). destruct (Hs k ltac:(lia)) as (E1 & _). set (al := sumsq n (r k) / dot n (D k) (mv n A (D k))) in *.
    exists (fun j => if Nat.eq_dec j k then al else a j). intros i. rewrite E1, Ha, sumR_S. destruct (Nat.eq_dec k k) as [_|]; [|lia].
    rewrite (sumR_ext k (fun j => (if Nat.eq_dec j k then al else a j) * D j i) (fun j => a j * D j i)); [ring|].
    intros j Hj. destruct (Nat.eq_dec j k); [lia|reflexivity].
Qed.
Lemma dot_sum_l k (c : nat -> R) y : (forall j, (j < k)%nat -> dot n (D j) y = 0) -> dot n (fun i => sumn k (fun j => c j * D j i)) y = 0.
Proof.
  induction k as [|k IH]; intros H; [now apply dot_zero_l|].
  rewrite (dot_ext n (fun i => sumn (S k) (fun j => c j * D j i)) y (fun i => sumn k (fun j => c j * D j i) + c k * D k i) y) by (intros; try rewrite sumR_S; reflexivity).
  rewrite (dot_lin_l n), IH, H by (intros; try apply H; lia). ring.
Qed.

(** The k-th iterate is the best point of x0 + span(D_0, .., D_(k-1)). *)
Lemma cg_optimal k c : (k <= K)%nat -> E (X k) <= E (fun i => x0 i + sumn k (fun j => c j * D j i)).
Proof.
  intros Hk. destruct (X_span k Hk) as (a & Ha). set (p := fun i => sumn k (fun j => (c j - a j) * D j i)).
  assert (Ep : forall i, (i < n)%nat -> x0 i + sumn k (fun j => c j * D j i) = X k i + p i).
  { intros i Hi. rewrite Ha. unfold p. rewrite (sumR_ext k (fun j => (c j - a j) * D j i) (fun j => c j * D j i + -1 * (a j * D j i))) by (intros; ring).
    rewrite sumR_add, sumR_mul_l. ring. }
  replace (E (fun i => x0 i + sumn k (fun j => c j * D j i))) with (E (fun i => X k i + p i)).
  - apply span_min; [exact Hk|]. apply dot_sum_l. intros j Hj. rewrite dot_comm.
    destruct (cg_inv_holds n A Hsym Hpd x0 b K X r D Hrun Hnz k Hk) as (_ & H & _). apply H. lia.
  - rewrite !quad_dot. apply dot_ext; intros i Hi; [now rewrite Ep|]. unfold mv. apply sumR_ext. intros l Hl. now rewrite Ep.
Qed.

Variables (m M : R).
Hypothesis Hm : 0 < m.
Hypothesis Hlow : forall v, m * sumsq n v <= quad n A v.
Hypothesis Hup : forall v, quad n A v <= M * sumsq n v.

Lemma energy_res k : (k <= K)%nat -> m * E (X k) <= sumsq n (r k).
Proof.
  intros Hk. set (e := fun i => X k i - s i).
  assert (Ee : forall i, (i < n)%nat -> mv n A e i = 0 + -1 * r k i).
  { intros i Hi. rewrite (cg_residual n A x0 b K X r D Hrun k Hk i Hi), <- (Hsol i Hi). unfold e.
    replace (mv n A (fun i0 => X k i0 - s i0) i) with (mv n A (fun i0 => X k i0 + -1 * s i0) i) by (unfold mv; apply sumR_ext; intros; ring). rewrite mv_lin. ring. }
  assert (Q : quad n A e = - dot n e (r k)).
  { rewrite quad_dot, (dot_ext n e (mv n A e) e (fun i => 0 + -1 * r k i)) by (intros; try apply Ee; auto). rewrite (dot_lin_r n).
    replace (dot n e (fun _ => 0)) with 0; [ring|]. rewrite dot_comm. symmetry. now apply dot_zero_l. }
  pose proof (quad_nonneg e) as Q0. pose proof (Hlow e) as Q1. pose proof (cauchy_schwarz_sq n e (r k)) as CS. fold (dot n e (r k)) in CS.
  pose proof (sumsq_nonneg n (r k)) as R0. set (q := quad n A e) in *. replace (dot n e (r k)) with (- q) in CS by lra.
  destruct (Req_dec q 0) as [Z|Z]; [rewrite Z; lra|]. apply (Rmult_le_reg_l q); [lra|].
  assert (m * (sumsq n e * sumsq n (r k)) <= q * sumsq n (r k)) by (rewrite <- Rmult_assoc; apply Rmult_le_compat_r; assumption).
  assert (m * (- q * - q) <= m * (sumsq n e * sumsq n (r k))) by (apply Rmult_le_compat_l; lra). lra.
Qed.
Lemma cg_decrease k : (k < K)%nat -> 0 < M /\ E (X (S k)) <= (1 - m / M) * E (X k).
Proof.
  intros Hk. assert (HM : 0 < M).
  { pose proof (Hlow (r k)). pose proof (Hup (r k)). pose proof (sumsq_nonneg n (r k)). pose proof (Hnz k Hk). assert (0 < sumsq n (r k)) by lra.
    assert (0 < m * sumsq n (r k)) by (now apply Rmult_lt_0_compat). apply (Rmult_lt_reg_r (sumsq n (r k))); lra. }
  split; [exact HM|].
  destruct Hrun as (_ & Hr0 & HD0 & Hs). destruct (Hs k Hk) as (E1 & _ & _). set (al := sumsq n (r k) / dot n (D k) (mv n A (D k))) in *.
  destruct (cg_inv_holds n A Hsym Hpd x0 b K X r D Hrun Hnz (S k) Hk) as (Hrr & Hrd & _).
  set (p := fun i => / M * r k i + - al * D k i).
  assert (S1 : E (X (S k)) <= E (fun i => X k i + / M * r k i)).
  { replace (E (fun i => X k i + / M * r k i)) with (E (fun i => X (S k) i + p i)).
    - apply span_min; [lia|]. unfold p. rewrite dot_comm, (dot_ext n (r (S k)) _ (r (S k)) (fun i => (0 + / M * r k i) + - al * D k i)) by (intros; ring).
      rewrite !(dot_lin_r n), Hrr, Hrd by lia. replace (dot n (r (S k)) (fun _ => 0)) with 0; [ring|]. rewrite dot_comm. symmetry. now apply dot_zero_l.
    - rewrite !quad_dot. apply dot_ext; intros i Hi; [rewrite E1; unfold p; ring|]. unfold mv. apply sumR_ext. intros l Hl. rewrite E1. unfold p. ring. }
  eapply Rle_trans; [exact S1|]. pose proof (energy_move k (fun i => / M * r k i) ltac:(lia)) as EM. cbv beta in EM |- *. rewrite EM.
  assert (S2 : dot n (fun i => / M * r k i) (r k) = / M * sumsq n (r k)).
  { unfold dot, sumsq. rewrite <- sumR_mul_l. apply sumR_ext. intros; ring. }
  pose proof (Hup (fun i => / M * r k i)) as U. replace (sumsq n (fun i => / M * r k i)) with (/ M * / M * sumsq n (r k)) in U
    by (unfold sumsq; rewrite <- sumR_mul_l; apply sumR_ext; intros; ring).
  replace (M * (/ M * / M * sumsq n (r k))) with (/ M * sumsq n (r k)) in U by (field; lra). rewrite S2.
  pose proof (energy_res k ltac:(lia)) as ER. assert (/ M * (m * E (X k)) <= / M * sumsq n (r k)) by (apply Rmult_le_compat_l; [left; now apply Rinv_0_lt_compat|exact ER]).
  unfold Rdiv. lra.
Qed.
Lemma cg_rate : forall k, (k <= K)%nat -> E (X k) <= (1 - m / M) ^ k * E x0.
Proof.
  destruct Hrun as (HX & _). induction k as [|k IH]; intros Hk; [rewrite HX; cbn [pow]; lra|].
  destruct (cg_decrease k ltac:(lia)) as (HM & H). eapply Rle_trans; [exact H|]. cbn [pow]. rewrite Rmult_assoc.
  destruct (Req_dec (E (X k)) 0) as [Z|Z].
  - rewrite Z in *. pose proof (IH ltac:(lia)) as I. assert (0 <= 1 - m / M).
    { pose proof (Hlow (r k)). pose proof (Hup (r k)). pose proof (sumsq_nonneg n (r k)). pose proof (Hnz k ltac:(lia)).
      assert (m <= M) by (apply (Rmult_le_reg_r (sumsq n (r k))); lra). assert (m / M <= 1); [|lra].
      apply (Rmult_le_reg_r M); [exact HM|]. unfold Rdiv. rewrite Rmult_assoc, Rinv_l by lra. lra. }
    apply Rmult_le_compat_l; assumption.
  - apply Rmult_le_compat_l; [|apply IH; lia].
    pose proof (quad_nonneg (fun i => X (S k) i - s i)) as N. pose proof (quad_nonneg (fun i => X k i - s i)) as N2. set (e := E (X k)) in *.
    apply (Rmult_le_reg_r e); [lra|]. lra.
Qed.
End Rate.
