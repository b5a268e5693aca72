(** Conjugate gradients. *)
From Coq Require Import Arith List Bool Lia Reals Lra.
From Verif Require Import Outcome Scalar RealOps Matrix_model Transpose_model Vector_model LU_model Decomp_model Ode_model Optim_model
  Matrix_spec LU_spec Decomp_spec Optim_spec Ode_spec Matrix_proofs Vector_proofs Sums Subst_proofs LUProps_proofs Norm_proofs Ode_proofs OdeOrder_proofs OdeConseq_proofs Newton_proofs Descent_proofs.
Import ListNotations.
Local Open Scope R_scope.

(** ** Bessel's inequality and the number of orthogonal vectors *)
Section Ortho.
Variables (n K : nat) (v : nat -> nat -> R).
Hypothesis Hnz : forall j, (j < K)%nat -> sumsq n (v j) <> 0.
Hypothesis Hort : forall i j, (i < j < K)%nat -> dot n (v j) (v i) = 0.

Lemma bessel w : forall k, (k <= K)%nat -> exists wk,
  sumsq n wk = sumsq n w - sumn k (fun j => dot n w (v j) * dot n w (v j) / sumsq n (v j)) /\
  forall l, (k <= l < K)%nat -> dot n wk (v l) = dot n w (v l).
Proof.
  induction k as [|k IH]; intros Hk.
  - exists w. split; [simpl; lra|reflexivity].
  - destruct IH as (wk & E & Hl); [lia|]. set (c := dot n w (v k) / sumsq n (v k)).
    exists (fun i => wk i + (- c) * v k i). split.
    + rewrite sumR_S. change (sumsq n (fun i => wk i + - c * v k i)) with (dot n (fun i => wk i + - c * v k i) (fun i => wk i + - c * v k i)).
      rewrite dot_lin_r, !dot_lin_l. rewrite (dot_comm n (v k) wk), (Hl k) by lia.
      change (dot n wk wk) with (sumsq n wk). change (dot n (v k) (v k)) with (sumsq n (v k)). rewrite E. unfold c.
      field. apply Hnz. lia.
    + intros l Hll. rewrite dot_lin_l, Hl by lia. rewrite (dot_comm n (v k) (v l)), Hort by lia. ring.
Qed.

Lemma dot_delta i x : (i < n)%nat -> dot n (delta i) x = x i.
Proof. intros Hi. exact (sumn_delta_l R_RingLaws n i x Hi). Qed.

Lemma orthogonal_count : (K <= n)%nat.
Proof.
  apply INR_le.
  assert (H1 : forall i, (i < n)%nat -> sumn K (fun j => v j i * v j i / sumsq n (v j)) <= 1).
  { intros i Hi. destruct (bessel (delta i) K (le_n K)) as (wk & E & _).
    pose proof (sumsq_nonneg n wk) as Hp. rewrite E in Hp.
    replace (sumsq n (delta i)) with 1 in Hp.
    - rewrite (sumR_ext K _ (fun j => v j i * v j i / sumsq n (v j))) in Hp; [lra|]. intros j Hj. rewrite dot_delta by assumption. reflexivity.
    - symmetry. change (dot n (delta i) (delta i) = 1). rewrite dot_delta by assumption. unfold delta. rewrite Nat.eqb_refl. reflexivity. }
  assert (H2 : sumn n (fun i => sumn K (fun j => v j i * v j i / sumsq n (v j))) <= sumn n (fun _ => 1)) by (apply sumn_R_le; exact H1).
  rewrite sumR_swap in H2.
  rewrite (sumR_ext K _ (fun _ => 1)) in H2.
  - assert (Hc : forall k, sumn k (fun _ => 1) = INR k) by (induction k; [reflexivity|rewrite sumR_S, IHk, S_INR; reflexivity]).
    rewrite !Hc in H2. exact H2.
  - intros j Hj. unfold Rdiv. rewrite sumR_mul_r. apply Rinv_r. apply Hnz. exact Hj.
Qed.
End Ortho.

Lemma sumsq_nz_ex n d : sumsq n d <> 0 -> exists i, (i < n)%nat /\ d i <> 0.
Proof.
  induction n as [|n IH]; intros H; [exfalso; apply H; reflexivity|].
  destruct (Req_dec (d n) 0) as [H0|H0]; [|exists n; auto].
  destruct IH as (i & Hi & Hd); [|exists i; auto].
  intros E. apply H. unfold sumsq in *. rewrite sumR_S, E, H0. ring.
Qed.

(** ** The method *)
Section CG.
Variables (n : nat) (A : nat -> nat -> R).

Lemma quad_dot x : quad n A x = dot n x (mv n A x).
Proof. unfold quad, dot, mv. apply sumR_ext. intros i Hi. rewrite <- sumR_mul_l. apply sumR_ext. intros; ring. Qed.

Section Theory.
Hypothesis Hsym : symmetric n A.
Hypothesis Hpd : pos_def n A.
Variables (x0 b : nat -> R) (K : nat) (X r D : nat -> nat -> R).
Let r0 := fun i => b i - mv n A x0 i.
Hypothesis Hrun : cg_run n A x0 r0 K X r D.
Hypothesis Hnz : forall j, (j < K)%nat -> sumsq n (r j) <> 0.

Lemma cg_residual : forall k, (k <= K)%nat -> forall i, (i < n)%nat -> r k i = b i - mv n A (X k) i.
Proof.
  destruct Hrun as (HX & Hr & _ & Hs). induction k as [|k IH]; intros Hk i Hi.
  - rewrite HX, Hr. reflexivity.
  - destruct (Hs k ltac:(lia)) as (E1 & E2 & _). rewrite E2, (IH ltac:(lia) i Hi).
    replace (mv n A (X (S k)) i) with (mv n A (X k) i + sumsq n (r k) / dot n (D k) (mv n A (D k)) * mv n A (D k) i); [ring|].
    rewrite <- mv_lin. unfold mv. apply sumR_ext. intros l Hl. rewrite E1. reflexivity.
Qed.

Lemma dot_zero_l z x : (forall i, (i < n)%nat -> z i = 0) -> dot n z x = 0.
Proof. intros H. unfold dot. rewrite (sumR_ext n _ (fun _ => 0)); [apply sumR_zero|]. intros i Hi. rewrite H by assumption. ring. Qed.

Lemma dAd_pos d : dot n d d <> 0 \/ (exists y, dot n d y <> 0) -> 0 < dot n d (mv n A d).
Proof.
  intros H. rewrite <- quad_dot. apply Hpd.
  destruct (Req_dec (sumsq n d) 0) as [H0|H0].
  - exfalso. pose proof (proj1 (sumsq_zero n d) H0) as Hz. destruct H as [H|(y & H)]; apply H; apply dot_zero_l; exact Hz.
  - clear H. exact (sumsq_nz_ex n d H0).
Qed.

(** Residuals orthogonal, directions conjugate, in the first k steps. *)
Definition cg_inv k : Prop :=
  (forall i j, (i < j <= k)%nat -> dot n (r j) (r i) = 0) /\
  (forall i j, (i < j <= k)%nat -> dot n (r j) (D i) = 0) /\
  (forall i j, (i < j <= k)%nat -> dot n (D j) (mv n A (D i)) = 0) /\
  (forall j, (j <= k)%nat -> dot n (D j) (r j) = sumsq n (r j)).

Lemma cg_inv_holds : forall k, (k <= K)%nat -> cg_inv k.
Proof.
  destruct Hrun as (HX & Hr & HD & Hs). induction k as [|k IH]; intros Hk.
  - split; [intros; lia|]. split; [intros; lia|]. split; [intros; lia|]. intros j Hj. replace j with 0%nat by lia. rewrite HD, Hr. reflexivity.
  - destruct (IH ltac:(lia)) as (Hrr & Hrd & Hdd & Hdr). clear IH.
    destruct (Hs k ltac:(lia)) as (_ & E2 & E3). 
    assert (Hrk : sumsq n (r k) <> 0) by (apply Hnz; lia).
    assert (Hpos : 0 < dot n (D k) (mv n A (D k))).
    { apply dAd_pos. right. exists (r k). rewrite Hdr by lia. exact Hrk. }
    set (al := sumsq n (r k) / dot n (D k) (mv n A (D k))) in *.
    set (be := sumsq n (r (S k)) / sumsq n (r k)) in *.
    assert (Er : forall y, dot n (r (S k)) y = dot n (r k) y - al * dot n (mv n A (D k)) y).
    { intros y. rewrite E2. rewrite (dot_ext n (fun i => r k i - al * mv n A (D k) i) y (fun i => r k i + - al * mv n A (D k) i) y) by (intros; ring).
      rewrite dot_lin_l. ring. }
    assert (Ed : forall y, dot n (D (S k)) y = dot n (r (S k)) y + be * dot n (D k) y).
    { intros y. rewrite E3, dot_lin_l. reflexivity. }
    assert (Hnew_rd : forall i, (i <= k)%nat -> dot n (r (S k)) (D i) = 0).
    { intros i Hi. rewrite Er. rewrite (dot_comm n (mv n A (D k)) (D i)). destruct (Nat.eq_dec i k) as [->|Hne].
      - rewrite (dot_comm n (r k) (D k)), Hdr by lia. unfold al. field. lra.
      - rewrite Hrd by lia. rewrite (quad_sym n A Hsym (D i) (D k)), Hdd by lia. ring. }
    assert (Hnew_rr : forall i, (i <= k)%nat -> dot n (r (S k)) (r i) = 0).
    { intros i Hi. destruct i as [|i].
      - rewrite Hr, <- HD. apply Hnew_rd. lia.
      - destruct (Hs i ltac:(lia)) as (_ & _ & E4). 
        set (c := sumsq n (r (S i)) / sumsq n (r i)) in *.
        rewrite (dot_ext n (r (S k)) (r (S i)) (r (S k)) (fun l => D (S i) l + - c * D i l)) by (intros; try rewrite E4; ring).
        rewrite dot_lin_r, !Hnew_rd by lia. ring. }
    split; [|split; [|split]].
    + intros i j Hij. destruct (Nat.eq_dec j (S k)) as [->|]; [apply Hnew_rr; lia|apply Hrr; lia].
    + intros i j Hij. destruct (Nat.eq_dec j (S k)) as [->|]; [apply Hnew_rd; lia|apply Hrd; lia].
    + intros i j Hij. destruct (Nat.eq_dec j (S k)) as [->|]; [|apply Hdd; lia]. rewrite Ed.
      destruct (Hs i ltac:(lia)) as (_ & E5 & _). 
      assert (Hri : sumsq n (r i) <> 0) by (apply Hnz; lia).
      assert (Hposi : 0 < dot n (D i) (mv n A (D i))) by (apply dAd_pos; right; exists (r i); rewrite Hdr by lia; exact Hri).
      set (ai := sumsq n (r i) / dot n (D i) (mv n A (D i))) in *.
      assert (Hai : ai <> 0) by (unfold ai, Rdiv; apply Rmult_integral_contrapositive_currified; [exact Hri|apply Rinv_neq_0_compat; lra]).
      assert (Ea : dot n (r (S k)) (mv n A (D i)) = (dot n (r (S k)) (r i) - dot n (r (S k)) (r (S i))) / ai).
      { rewrite (dot_ext n (r (S k)) (r (S i)) (r (S k)) (fun l => r i l + - ai * mv n A (D i) l)) by (intros; try rewrite E5; ring).
        rewrite dot_lin_r. field. exact Hai. }
      rewrite Ea, Hnew_rr by lia. destruct (Nat.eq_dec i k) as [->|Hne].
      * change (dot n (r (S k)) (r (S k))) with (sumsq n (r (S k))). unfold be, ai. field. split; [exact Hrk|lra].
      * rewrite Hnew_rr by lia. rewrite Hdd by lia. field. exact Hai.
    + intros j Hj. destruct (Nat.eq_dec j (S k)) as [->|]; [|apply Hdr; lia]. rewrite Ed, (dot_comm n (D k)), Hnew_rd by lia.
      change (dot n (r (S k)) (r (S k))) with (sumsq n (r (S k))). ring.
Qed.

Lemma cg_steps : (K <= n)%nat.
Proof.
  apply (orthogonal_count n K r); [exact Hnz|]. destruct (cg_inv_holds K (le_n K)) as (Hrr & _). intros i j Hij. apply Hrr. lia.
Qed.

Lemma cg_zero_at_n : K = n -> forall i, (i < n)%nat -> r K i = 0.
Proof.
  intros HK. destruct (Req_dec (sumsq n (r K)) 0) as [H0|H0]; [apply sumsq_zero; exact H0|exfalso].
  assert (S K <= n)%nat; [|lia]. apply (orthogonal_count n (S K) r).
  - intros j Hj. destruct (Nat.eq_dec j K) as [->|]; [exact H0|apply Hnz; lia].
  - destruct (cg_inv_holds K (le_n K)) as (Hrr & _). intros i j Hij. apply Hrr. lia.
Qed.
End Theory.

(** ** The code *)
Section Code.
Variables (jac : vector R -> outcome (matrix R)).
Hypothesis HJ : computes_mat jac n n n (fun _ => A).
Hypothesis Hn : (0 < n)%nat.

Lemma cg_loop_step iters eps x d r gx gd gr : is_col x n gx -> is_col d n gd -> is_col r n gr ->
  let al := sumsq n gr / dot n gd (mv n A gd) in
  let gr1 := fun i => gr i - al * mv n A gd i in
  exists x' d' r', is_col x' n (fun i => gx i + al * gd i) /\ is_col r' n gr1 /\
    is_col d' n (fun i => gr1 i + sumsq n gr1 / sumsq n gr * gd i) /\
    cg_loop (S iters) eps jac x d r = if R_ltb (enorm n gr1) eps then Ret x' else cg_loop iters eps jac x' d' r'.
Proof.
  intros Hx Hd Hr al gr1. cbn [cg_loop]. destruct (HJ x gx Hx) as (M & E & HM). rewrite E. cbn [bind].
  destruct (vtranspose_col d n gd Hn Hd) as (dt & E1 & Hdt). rewrite E1. cbn [bind].
  destruct (vmul_mat_spec M n n A dt gd HM Hdt) as (tp & E2 & Htp). rewrite E2. cbn [bind].
  rewrite (vdotp_spec r r n _ _ Hn Hr Hr). cbn [bind].
  destruct (vtranspose_row tp n _ Hn Htp) as (tt & E3 & Htt). rewrite E3. cbn [bind].
  rewrite (vdotp_spec tt d n _ _ Hn Htt Hd). cbn [bind].
  replace (div (sumn n (fun i => mul (gr i) (gr i))) (sumn n (fun i => mul (sumn n (fun k => mul (gd k) (A k i))) (gd i)))) with al.
  2:{ unfold al, sumsq. cbn [div mul R_ops]. f_equal. unfold dot, mv.
      rewrite (sumR_ext n (fun i => sumn n (fun k => gd k * A k i) * gd i) (fun i => sumn n (fun k => gd k * A k i * gd i))).
      - rewrite sumR_swap. apply sumR_ext. intros i Hi. rewrite <- sumR_mul_l. apply sumR_ext. intros; ring.
      - intros i Hi. rewrite <- sumR_mul_r. reflexivity. }
  destruct (vadd_col x _ n gx _ Hx (vmul_scalar_col d n gd al Hd)) as (x' & E4 & Hx'). rewrite E4. cbn [bind].
  destruct (mmul_vec_spec M n n A d gd HM Hd) as (jd & E5 & Hjd). rewrite E5. cbn [bind].
  destruct (vsub_col r _ n gr _ Hr (vmul_scalar_col jd n _ al Hjd)) as (r' & E6 & Hr'). rewrite E6. cbn [bind].
  assert (Hr1 : is_col r' n gr1) by (revert Hr'; apply col_ext; intros i Hi; unfold gr1, mv; cbn [sub mul R_ops]; ring).
  rewrite (vdotp_spec r' r' n _ _ Hn Hr1 Hr1). cbn [bind].
  change (sumn n (fun i => mul (gr1 i) (gr1 i))) with (sumsq n gr1). change (sumn n (fun i => mul (gr i) (gr i))) with (sumsq n gr).
  destruct (vadd_col r' _ n gr1 _ Hr1 (vmul_scalar_col d n gd (sumsq n gr1 / sumsq n gr) Hd)) as (d' & E7 & Hd').
  change (@div R R_ops (sumsq n gr1) (sumsq n gr)) with (sumsq n gr1 / sumsq n gr). rewrite E7. cbn [bind].
  exists x', d', r'. split; [revert Hx'; apply col_ext; intros; cbn [add mul R_ops]; ring|]. split; [exact Hr1|].
  split; [revert Hd'; apply col_ext; intros; cbn [add mul R_ops]; ring|].
  change (@tpow R R_pops (sumsq n gr1) half) with (R_pow (sumsq n gr1) (1 / 2)). rewrite R_pow_half by apply sumsq_nonneg. reflexivity.
Qed.

Lemma cg_loop_spec eps : forall iters x d r gx gr gd, is_col x n gx -> is_col d n gd -> is_col r n gr ->
  exists w k X rr D, cg_loop iters eps jac x d r = Ret w /\ (k <= iters)%nat /\ is_col w n (X k) /\
    X 0%nat = gx /\ rr 0%nat = gr /\ D 0%nat = gd /\
    (forall j, (j < k)%nat -> let alpha := (sumsq n (rr j) / dot n (D j) (mv n A (D j))) in
      X (S j) = (fun i => X j i + alpha * D j i) /\
      rr (S j) = (fun i => rr j i - alpha * mv n A (D j) i) /\
      D (S j) = (fun i => rr (S j) i + sumsq n (rr (S j)) / sumsq n (rr j) * D j i)) /\
    (forall j, (0 < j < k)%nat -> eps <= enorm n (rr j)) /\
    (k = iters \/ (0 < k)%nat /\ enorm n (rr k) < eps).
Proof.
  induction iters as [|iters IH]; intros x d r gx gr gd Hx Hd Hr.
  - exists x, 0%nat, (fun _ => gx), (fun _ => gr), (fun _ => gd). split; [reflexivity|]. split; [lia|]. split; [exact Hx|].
    repeat (split; [reflexivity|]). split; [intros; lia|]. split; [intros; lia|left; reflexivity].
  - destruct (cg_loop_step iters eps x d r gx gd gr Hx Hd Hr) as (x' & d' & r' & Hx' & Hr' & Hd' & E). rewrite E.
    destruct (R_ltb _ eps) eqn:Et.
    + apply R_ltb_true in Et. set (al := sumsq n gr / dot n gd (mv n A gd)) in *. set (gr1 := fun i => gr i - al * mv n A gd i) in *.
      exists x', 1%nat, (fun k => match k with O => gx | S _ => fun i => gx i + al * gd i end), (fun k => match k with O => gr | S _ => gr1 end), (fun k => match k with O => gd | S _ => fun i => gr1 i + sumsq n gr1 / sumsq n gr * gd i end).
      split; [reflexivity|]. split; [lia|]. split; [exact Hx'|]. repeat (split; [reflexivity|]).
      split; [|split; [intros; lia|right; split; [lia|exact Et]]].
      intros j Hj. replace j with 0%nat by lia. cbv zeta. split; [reflexivity|]. split; reflexivity.
    + apply R_ltb_false in Et. destruct (IH x' d' r' _ _ _ Hx' Hd' Hr') as (w & k & X & rr & D & Ew & Hk & Hw & E1 & E2 & E3 & Hs & Hge & Hend).
      exists w, (S k), (fun k => match k with O => gx | S k => X k end), (fun k => match k with O => gr | S k => rr k end), (fun k => match k with O => gd | S k => D k end).
      split; [exact Ew|]. split; [lia|]. split; [exact Hw|]. repeat (split; [reflexivity|]). split; [|split].
      * intros [|j] Hj; [|apply Hs; lia]. cbv zeta. rewrite E1, E2, E3. split; [reflexivity|]. split; reflexivity.
      * intros [|j] Hj; [lia|]. destruct j as [|j]; [rewrite E2; exact Et|apply Hge; lia].
      * destruct Hend as [->|(Hk0 & Hl)]; [left; reflexivity|right; split; [lia|exact Hl]].
Qed.

Lemma cg_min_spec func eps iters x0 g0 F : computes func n n F -> is_col x0 n g0 ->
  exists w k X r D, cg_min iters eps func jac x0 = Ret w /\ (k <= iters)%nat /\ is_col w n (X k) /\
    cg_run n A g0 (F g0) k X r D /\ (forall j, (0 < j < k)%nat -> eps <= enorm n (r j)) /\
    (k = iters \/ (0 < k)%nat /\ enorm n (r k) < eps).
Proof.
  intros HF Hx. unfold cg_min. destruct (HF x0 g0 Hx) as (d & E & Hd). rewrite E. cbn [bind].
  destruct (cg_loop_spec eps iters x0 d d g0 (F g0) (F g0) Hx Hd Hd) as (w & k & X & rr & D & Ew & Hk & Hw & E1 & E2 & E3 & Hs & Hge & Hend).
  exists w, k, X, rr, D. split; [exact Ew|]. split; [exact Hk|]. split; [exact Hw|]. split; [|split; assumption].
  split; [exact E1|]. split; [exact E2|]. split; [exact E3|exact Hs].
Qed.
End Code.
End CG.
