(** Newton's method for minimisation: near a minimum every step is a full Newton step and the gradient vanishes quadratically. *)
From Coq Require Import Arith Lia List Bool ZArith Reals Lra Psatz.
From Verif Require Import Outcome Scalar RealOps Matrix_model Vector_model LU_model Matrix_spec Matrix_proofs Vector_proofs Decomp_spec Sums Norm_proofs Optim_model Optim_spec Newton_proofs OdeConseq_proofs OdeGlobal_proofs Descent_proofs Convex_proofs.
Import ListNotations.
Local Open Scope R_scope.

Section Local.
Context (func : vector R -> outcome (vector R)) (jac hess : vector R -> outcome (matrix R)) (n m p : nat)
  (F : (nat -> R) -> nat -> R) (J Hs : (nat -> R) -> nat -> nat -> R).
Hypothesis HF : computes func n m F.
Hypothesis HJ : computes_mat jac n p n J.
Hypothesis HH : computes_mat hess n n n Hs.
Hypothesis Hm : (0 < m)%nat. Hypothesis Hp : (0 < p)%nat. Hypothesis Hn : (0 < n)%nat.
Variables (g0 : nat -> R) (r mu M K sigma rho : R).
Let near (x : nat -> R) := enorm n (fun i => x i - g0 i) <= r.
Hypothesis Hmu : 0 < mu.
Hypothesis HK : 0 < K.
Hypothesis HM : rho * M <= 1.
Hypothesis Hrho : 0 <= rho.
Hypothesis Hsolve : forall x g A, is_col x n g -> near g -> hess x = Ret A -> solver_ok A n (Hs g).
Hypothesis Hlow : forall g v, near g -> mu * sumsq n v <= dot n v (mv n (Hs g) v).
Hypothesis Hup : forall g v, near g -> sumsq n (mv n (Hs g) v) <= M * dot n v (mv n (Hs g) v).
Hypothesis HT1 : forall g d, near g -> near (fun i => g i + d i) ->
  F (fun i => g i + d i) 0%nat <= F g 0%nat + dot n (J g 0%nat) d + 1 / 2 * dot n d (mv n (Hs g) d) + K / 6 * enorm n d ^ 3.
Hypothesis HT2 : forall g d, near g -> near (fun i => g i + d i) ->
  enorm n (fun i => J (fun i => g i + d i) 0%nat i - J g 0%nat i - mv n (Hs g) d i) <= K / 2 * enorm n d ^ 2.

Lemma dot_neg_r x y : dot n x (fun i => - y i) = - dot n x y.
Proof. unfold dot. rewrite (sumR_ext n _ (fun i => (-1) * (x i * y i))) by (intros; ring). rewrite sumR_mul_l. ring. Qed.
Lemma mv_ext_vec A x y i : (forall k, (k < n)%nat -> x k = y k) -> mv n A x i = mv n A y i.
Proof. intros H. unfold mv. apply sumR_ext. intros k Hk. now rewrite H. Qed.

Lemma local_step g D : near g -> direction hess n J rho g D ->
  (forall i, (i < n)%nat -> mv n (Hs g) D i = - J g 0%nat i) /\
  mu * enorm n D <= enorm n (J g 0%nat) /\ dot n (J g 0%nat) D = - dot n D (mv n (Hs g) D).
Proof.
  intros Hg (W & (x & A & v & w & Hx & EA & Hv & Ew & Hw) & HD).
  assert (EW : forall i, (i < n)%nat -> mv n (Hs g) W i = - J g 0%nat i).
  { intros i Hi. destruct (Hsolve x g A Hx Hg EA v _ Hv) as (w' & W' & Ew' & Hw' & Hok & _). rewrite Ew in Ew'. injection Ew' as <-.
    rewrite <- Hok by exact Hi. apply mv_ext_vec. intros k Hk. exact (col_unique w n _ _ k Hw Hw' Hk). }
  assert (E1 : dot n (J g 0%nat) W = - dot n W (mv n (Hs g) W)).
  { rewrite (dot_comm n). rewrite <- (Ropp_involutive (dot n W (J g 0%nat))), <- dot_neg_r. f_equal. apply (dot_ext n); [reflexivity|]. intros i Hi. now rewrite EW. }
  assert (E2 : sumsq n (mv n (Hs g) W) = sumsq n (J g 0%nat)).
  { unfold sumsq. apply sumR_ext. intros i Hi. rewrite EW by exact Hi. ring. }
  assert (ED : D = W).
  { destruct HD as [(_ & H)|(H & _)]; [exact H|exfalso]. rewrite E1 in H. pose proof (Hup g W Hg) as U. rewrite E2 in U.
    pose proof (Hlow g W Hg) as Lw. pose proof (sumsq_nonneg n W) as S0. set (q := dot n W (mv n (Hs g) W)) in *.
    assert (Q0 : 0 <= q) by nra. assert (rho * sumsq n (J g 0%nat) <= rho * (M * q)) by (apply Rmult_le_compat_l; lra).
    assert (rho * M * q <= 1 * q) by (apply Rmult_le_compat_r; lra). lra. }
  subst D. split; [exact EW|]. split; [|exact E1].
  pose proof (Hlow g W Hg) as Lw. pose proof (cauchy_schwarz n (J g 0%nat) W) as CS. fold (dot n (J g 0%nat) W) in CS. rewrite E1, Rabs_Ropp in CS.
  rewrite <- (enorm_sq n W) in Lw. pose proof (enorm_nonneg n W) as N0. pose proof (enorm_nonneg n (J g 0%nat)) as N1.
  set (q := dot n W (mv n (Hs g) W)) in *. set (a := enorm n W) in *. set (b := enorm n (J g 0%nat)) in *.
  assert (q <= b * a) by (eapply Rle_trans; [apply Rle_abs|exact CS]).
  destruct (Req_dec a 0) as [->|Z]; [lra|]. apply (Rmult_le_reg_r a); [lra|]. lra.
Qed.

(** One iteration from a point that is near enough. *)
Lemma local_iter iters fuel x g : is_col x n g -> near g ->
  (forall y, enorm n (fun i => y i - g i) <= enorm n (J g 0%nat) / mu -> near y) ->
  K * enorm n (J g 0%nat) <= mu ^ 2 * (3 - 6 * sigma) ->
  exists x' g', is_col x' n g' /\ newton_min (S iters) fuel sigma rho func jac hess x = newton_min iters fuel sigma rho func jac hess x' /\
    enorm n (fun i => g' i - g i) <= enorm n (J g 0%nat) / mu /\
    2 * mu ^ 2 * enorm n (J g' 0%nat) <= K * enorm n (J g 0%nat) ^ 2.
Proof.
  intros Hx Hg Hball Hk.
  destruct (newton_min_step func jac hess n m p F J Hs HF HJ HH Hm Hp Hn iters fuel sigma rho x g Hx) as (D & HD & Hcase).
  destruct (local_step g D Hg HD) as (ED & BD & GD). pose proof (enorm_nonneg n D) as N0. pose proof (enorm_nonneg n (J g 0%nat)) as N1.
  set (a := enorm n D) in *. set (b := enorm n (J g 0%nat)) in *.
  assert (BD' : a <= b / mu). { apply (Rmult_le_reg_l mu); [exact Hmu|]. replace (mu * (b / mu)) with b by (field; lra). exact BD. }
  assert (NG : near (fun i => g i + D i)). { apply Hball. rewrite (enorm_ext n _ D); [exact BD'|]. intros; ring. }
  assert (AR : armijo_dir n F J sigma g D 0).
  { unfold armijo_dir. cbn [pow]. rewrite Rinv_1.
    replace (F (fun i => g i + 1 * D i) 0%nat) with (F (fun i => g i + D i) 0%nat) by (apply (computes_ext func n m F); [exact HF|intros; ring|exact Hm]).
    pose proof (HT1 g D Hg NG) as T1. rewrite GD in *. pose proof (Hlow g D Hg) as Lw. rewrite <- (enorm_sq n D) in Lw. fold a in Lw, T1.
    set (q := dot n D (mv n (Hs g) D)) in *.
    assert (A1 : K * a <= mu * (3 - 6 * sigma)).
    { apply (Rmult_le_reg_l mu); [exact Hmu|]. assert (K * (mu * a) <= K * b) by (apply Rmult_le_compat_l; lra).
      replace (mu * (mu * (3 - 6 * sigma))) with (mu ^ 2 * (3 - 6 * sigma)) by ring. lra. }
    assert (A2 : K / 6 * a ^ 3 <= (1 / 2 - sigma) * q).
    { destruct (Req_dec a 0) as [Z|Z].
      - rewrite Z. assert (0 <= 3 - 6 * sigma). { assert (0 <= mu ^ 2 * (3 - 6 * sigma)) by (eapply Rle_trans; [|exact Hk]; apply Rmult_le_pos; lra).
          apply (Rmult_le_reg_l (mu ^ 2)); [apply pow_lt; exact Hmu|lra]. }
        rewrite Z in Lw. cbn [pow]. assert (0 <= (1 / 2 - sigma) * q) by (apply Rmult_le_pos; lra). lra.
      - assert (0 < a) by lra. assert (P : 0 <= 3 - 6 * sigma). { apply (Rmult_le_reg_l mu); [exact Hmu|]. assert (0 <= K * a) by (apply Rmult_le_pos; lra). lra. }
        assert (K * a * (a * a) <= mu * (3 - 6 * sigma) * (a * a)) by (apply Rmult_le_compat_r; [nra|exact A1]).
        assert ((3 - 6 * sigma) * (mu * (a * a)) <= (3 - 6 * sigma) * q) by (apply Rmult_le_compat_l; lra).
        replace (K / 6 * a ^ 3) with (K * a * (a * a) / 6) by field. lra. }
    lra. }
  destruct Hcase as [(_ & Hno)|(al & x' & Hx' & _ & _ & Hb & E)]; [exfalso; exact (Hno 0%nat ltac:(lia) AR)|].
  assert (al = 0)%nat by (destruct al; [reflexivity|exfalso; exact (Hb 0%nat ltac:(lia) AR)]). subst al.
  exists x', (fun i => g i + D i). split; [|split; [exact E|split]].
  - revert Hx'. apply col_ext. intros i Hi. cbn [pow]. field.
  - rewrite (enorm_ext n _ D); [exact BD'|]. intros; ring.
  - pose proof (HT2 g D Hg NG) as T2. rewrite (enorm_ext n _ (fun i => J (fun i => g i + D i) 0%nat i)) in T2.
    2:{ intros i Hi. rewrite ED by exact Hi. ring. }
    fold a in T2. set (c := enorm n (fun i => J (fun i0 => g i0 + D i0) 0%nat i)) in *. change (enorm n (J (fun i => g i + D i) 0%nat)) with c.
    assert (2 * mu ^ 2 * c <= 2 * mu ^ 2 * (K / 2 * a ^ 2)) by (apply Rmult_le_compat_l; [pose proof (pow_lt mu 2 Hmu); lra|exact T2]).
    assert ((mu * a) * (mu * a) <= b * b) by (apply Rmult_le_compat; try lra; apply Rmult_le_pos; lra).
    assert (K * ((mu * a) * (mu * a)) <= K * (b * b)) by (apply Rmult_le_compat_l; lra).
    replace (2 * mu ^ 2 * (K / 2 * a ^ 2)) with (K * ((mu * a) * (mu * a))) in H by field. cbn [pow]. lra.
Qed.

Hypothesis Hrad : 2 * enorm n (J g0 0%nat) <= mu * r.
Hypothesis Hst1 : K * enorm n (J g0 0%nat) <= mu ^ 2.
Hypothesis Hst2 : K * enorm n (J g0 0%nat) <= mu ^ 2 * (3 - 6 * sigma).

Let b0 := enorm n (J g0 0%nat).
Let w := K / (2 * mu ^ 2).

Lemma enorm_sub_triangle (x y z : nat -> R) : enorm n (fun i => x i - z i) <= enorm n (fun i => x i - y i) + enorm n (fun i => y i - z i).
Proof. rewrite (enorm_ext n _ (fun i => (x i - y i) + (y i - z i))) by (intros; ring). apply enorm_triangle. Qed.

Lemma newton_local_run fuel : forall iters k x g, is_col x n g ->
  enorm n (fun i => g i - g0 i) <= (2 - 2 / 2 ^ k) * (b0 / mu) -> enorm n (J g 0%nat) <= b0 / 2 ^ k -> w * enorm n (J g 0%nat) <= (w * b0) ^ (2 ^ k) ->
  exists x' g', newton_min iters fuel sigma rho func jac hess x = Ret (Some x') /\ is_col x' n g' /\
    enorm n (fun i => g' i - g0 i) <= r /\ w * enorm n (J g' 0%nat) <= (w * b0) ^ (2 ^ (k + iters)).
Proof.
  pose proof (enorm_nonneg n (J g0 0%nat)) as N0. fold b0 in N0, Hst1, Hst2, Hrad.
  assert (BM : 0 <= b0 / mu) by (apply Rmult_le_pos; [exact N0|left; now apply Rinv_0_lt_compat]).
  assert (RM : 2 * (b0 / mu) <= r). { apply (Rmult_le_reg_l mu); [exact Hmu|]. replace (mu * (2 * (b0 / mu))) with (2 * b0) by (field; lra). exact Hrad. }
  pose proof (pow_lt mu 2 Hmu) as M2. assert (W0 : 0 < w) by (apply Rdiv_lt_0_compat; lra).
  assert (P2 : forall k, 0 < / 2 ^ k <= 1) by (intro; apply inv2_range).
  induction iters as [|iters IH]; intros k x g Hx Hd Hb Hq.
  - exists x, g. split; [reflexivity|]. split; [exact Hx|]. split; [|rewrite Nat.add_0_r; exact Hq].
    eapply Rle_trans; [exact Hd|]. eapply Rle_trans; [|exact RM]. apply Rmult_le_compat_r; [exact BM|]. specialize (P2 k). unfold Rdiv. lra.
  - pose proof (enorm_nonneg n (J g 0%nat)) as N1. set (b := enorm n (J g 0%nat)) in *. specialize (P2 k) as Pk.
    assert (Bb : b <= b0). { eapply Rle_trans; [exact Hb|]. unfold Rdiv. rewrite <- (Rmult_1_r b0) at 2. apply Rmult_le_compat_l; lra. }
    assert (Near : near g). { unfold near. eapply Rle_trans; [exact Hd|]. eapply Rle_trans; [|exact RM]. apply Rmult_le_compat_r; [exact BM|]. unfold Rdiv. lra. }
    assert (BB : b / mu <= / 2 ^ k * (b0 / mu)).
    { unfold Rdiv. rewrite <- Rmult_assoc, (Rmult_comm (/ 2 ^ k)). apply Rmult_le_compat_r; [left; now apply Rinv_0_lt_compat|exact Hb]. }
    destruct (local_iter iters fuel x g Hx Near) as (x' & g' & Hx' & E & Hd' & Hg').
    + intros y Hy. unfold near. eapply Rle_trans; [apply (enorm_sub_triangle y g g0)|]. fold b in Hy.
      eapply Rle_trans; [|exact RM]. assert ((2 - 2 / 2 ^ k) * (b0 / mu) + / 2 ^ k * (b0 / mu) <= 2 * (b0 / mu)); [|lra].
      rewrite <- Rmult_plus_distr_r. apply Rmult_le_compat_r; [exact BM|]. unfold Rdiv. lra.
    + fold b. eapply Rle_trans; [|exact Hst2]. apply Rmult_le_compat_l; lra.
    + fold b in Hd', Hg'. rewrite E. pose proof (enorm_nonneg n (J g' 0%nat)) as N2. set (b' := enorm n (J g' 0%nat)) in *.
      destruct (IH (S k) x' g' Hx') as (x2 & g2 & E2 & H2).
      * eapply Rle_trans; [apply (enorm_sub_triangle g' g g0)|]. eapply Rle_trans; [apply Rplus_le_compat; [exact Hd'|exact Hd]|].
        eapply Rle_trans; [apply Rplus_le_compat_r; exact BB|]. apply Req_le. cbn [pow]. field. split; [lra|apply pow_nonzero; lra].
      * fold b'. assert (2 * mu ^ 2 * b' <= mu ^ 2 * b).
        { eapply Rle_trans; [exact Hg'|]. replace (K * b ^ 2) with (K * b * b) by ring. apply Rmult_le_compat_r; [exact N1|].
          eapply Rle_trans; [|exact Hst1]. apply Rmult_le_compat_l; lra. }
        assert (b' <= b / 2). { apply (Rmult_le_reg_l (mu ^ 2)); [exact M2|]. lra. }
        eapply Rle_trans; [eassumption|]. replace (b0 / 2 ^ S k) with (b0 / 2 ^ k / 2) by (cbn [pow]; field; apply pow_nonzero; lra). lra.
      * fold b'. assert (w * b' <= (w * b) ^ 2).
        { replace ((w * b) ^ 2) with (w * (K * b ^ 2 / (2 * mu ^ 2))) by (unfold w; field; lra). apply Rmult_le_compat_l; [lra|].
          apply (Rmult_le_reg_l (2 * mu ^ 2)); [lra|]. replace (2 * mu ^ 2 * (K * b ^ 2 / (2 * mu ^ 2))) with (K * b ^ 2) by (field; lra). exact Hg'. }
        eapply Rle_trans; [eassumption|]. replace ((w * b0) ^ (2 ^ S k)) with (((w * b0) ^ (2 ^ k)) ^ 2) by (replace (2 ^ S k)%nat with (2 ^ k + 2 ^ k)%nat by (cbn; lia); rewrite pow_add; ring).
        apply pow_incr. split; [apply Rmult_le_pos; lra|exact Hq].
      * exists x2, g2. split; [exact E2|]. replace (k + S iters)%nat with (S k + iters)%nat by lia. exact H2.
Qed.

Lemma newton_local fuel iters x0 : is_col x0 n g0 ->
  exists x g, newton_min iters fuel sigma rho func jac hess x0 = Ret (Some x) /\ is_col x n g /\
    enorm n (fun i => g i - g0 i) <= r /\ w * enorm n (J g 0%nat) <= (w * b0) ^ (2 ^ iters).
Proof.
  intros Hx. apply (newton_local_run fuel iters 0 x0 g0 Hx).
  - cbn [pow]. replace (enorm n (fun i => g0 i - g0 i)) with 0; [lra|]. symmetry. apply enorm_zero. intros; ring.
  - cbn [pow]. unfold Rdiv. rewrite Rinv_1. fold b0. lra.
  - cbn. fold b0. lra.
Qed.
End Local.

(** Example: x^2/2 + x^4/12. *)
Definition qx_func (v : vector R) : outcome (vector R) := let! x := vvget v 0 in Ret (mkMatrix 1 1 [x ^ 2 / 2 + x ^ 4 / 12]).
Definition qx_jac (v : vector R) : outcome (matrix R) := let! x := vvget v 0 in Ret (mkMatrix 1 1 [x + x ^ 3 / 3]).
Definition qx_hess (v : vector R) : outcome (matrix R) := let! x := vvget v 0 in Ret (mkMatrix 1 1 [1 + x ^ 2]).
Lemma qx_f : computes qx_func 1 1 (fun g _ => g 0%nat ^ 2 / 2 + g 0%nat ^ 4 / 12).
Proof. intros x g H. unfold qx_func. rewrite (col_get x 1 g 0 H) by lia. cbn [bind]. eexists. split; [reflexivity|]. apply tan_col. Qed.
Lemma qx_j : computes_mat qx_jac 1 1 1 (fun g _ _ => g 0%nat + g 0%nat ^ 3 / 3).
Proof. intros x g H. unfold qx_jac. rewrite (col_get x 1 g 0 H) by lia. cbn [bind]. eexists. split; [reflexivity|]. apply tan_col. Qed.
Lemma qx_h : computes_mat qx_hess 1 1 1 (fun g _ _ => 1 + g 0%nat ^ 2).
Proof. intros x g H. unfold qx_hess. rewrite (col_get x 1 g 0 H) by lia. cbn [bind]. eexists. split; [reflexivity|]. apply tan_col. Qed.
Lemma enorm_1 (f : nat -> R) : enorm 1 f = Rabs (f 0%nat).
Proof. unfold enorm, sumsq. cbn. rewrite Rplus_0_l. exact (sqrt_Rsqr_abs (f 0%nat)). Qed.
Lemma mv_1 a v i : mv 1 (fun _ _ => a) v i = a * v 0%nat.
Proof. unfold mv. cbn. ring. Qed.
Lemma dot_1 x y : dot 1 x y = x 0%nat * y 0%nat.
Proof. unfold dot. cbn. ring. Qed.
Lemma sumsq_1 x : sumsq 1 x = x 0%nat * x 0%nat.
Proof. unfold sumsq. cbn. ring. Qed.
Lemma qx_taylor x d : -1 <= x <= 1 -> -1 <= x + d <= 1 ->
  (x + d) ^ 2 / 2 + (x + d) ^ 4 / 12 <= x ^ 2 / 2 + x ^ 4 / 12 + (x + x ^ 3 / 3) * d + 1 / 2 * (d * ((1 + x ^ 2) * d)) + 2 / 6 * Rabs d ^ 3 /\
  Rabs (x + d + (x + d) ^ 3 / 3 - (x + x ^ 3 / 3) - (1 + x ^ 2) * d) <= 2 / 2 * Rabs d ^ 2.
Proof.
  intros H1 H2. split.
  - replace ((x + d) ^ 2 / 2 + (x + d) ^ 4 / 12) with (x ^ 2 / 2 + x ^ 4 / 12 + (x + x ^ 3 / 3) * d + 1 / 2 * (d * ((1 + x ^ 2) * d)) + d ^ 3 * ((3 * x + (x + d)) / 12)) by field.
    assert (d ^ 3 * ((3 * x + (x + d)) / 12) <= 2 / 6 * Rabs d ^ 3); [|lra].
    eapply Rle_trans; [apply Rle_abs|]. rewrite Rabs_mult, <- RPow_abs, Rmult_comm. apply Rmult_le_compat_r; [apply pow_le, Rabs_pos|].
    apply Rabs_le. lra.
  - replace (x + d + (x + d) ^ 3 / 3 - (x + x ^ 3 / 3) - (1 + x ^ 2) * d) with (d ^ 2 * ((2 * x + (x + d)) / 3)) by field.
    rewrite Rabs_mult, <- RPow_abs, Rmult_comm. apply Rmult_le_compat_r; [apply pow_le, Rabs_pos|]. apply Rabs_le. lra.
Qed.
