(** Gradient descent with the halving line search: small gradients for smooth objectives, and the O(1/k) rate for convex ones. *)
From Coq Require Import Arith Lia List Bool ZArith Reals Lra Psatz.
From Verif Require Import Outcome Scalar RealOps Matrix_model Vector_model Matrix_spec Matrix_proofs Vector_proofs Decomp_spec Sums Norm_proofs Optim_model Optim_spec Descent_proofs Newton_proofs.
Import ListNotations.
Local Open Scope R_scope.

(** A run of i + j iterations is a run of i followed by one of j. *)
Lemma grad_min_split (sigma : R) func jac fuel : forall i j x,
  grad_min (i + j) fuel sigma func jac x =
  match grad_min i fuel sigma func jac x with Ret (Some y) => grad_min j fuel sigma func jac y | r => r end.
Proof.
  induction i as [|i IH]; intros j x; [reflexivity|]. cbn [Nat.add grad_min].
  destruct (grad_at jac x) as [g|]; [|reflexivity]. cbn [bind].
  destruct (grad_search fuel sigma func x (vneg g) one) as [[al|]|]; cbn [bind]; try reflexivity.
  destruct (vadd x (vmul_scalar (vneg g) al)); cbn [bind]; [apply IH|reflexivity].
Qed.

Lemma avg_le N (a : nat -> R) S : (0 < N)%nat -> sumn N a <= S -> exists k, (k < N)%nat /\ INR N * a k <= S.
Proof.
  intros HN. revert S. induction N as [|N IH]; [lia|]. intros S HS. cbn [sumn] in HS. change (@add R R_ops) with Rplus in HS.
  destruct N as [|N]. { exists 0%nat. split; [lia|]. cbn in HS |- *. change (@zero R R_ops) with 0 in HS. lra. }
  destruct (Rle_dec (INR (Datatypes.S (Datatypes.S N)) * a (Datatypes.S N)) S) as [L|L]; [exists (Datatypes.S N); split; [lia|exact L]|].
  destruct (IH ltac:(lia) (S - a (Datatypes.S N)) ltac:(lra)) as (k & Hk & Hb). exists k. split; [lia|].
  rewrite (S_INR (Datatypes.S N)) in *. pose proof (lt_0_INR (Datatypes.S N) ltac:(lia)) as HP. set (m := INR (Datatypes.S N)) in *. set (b := a (Datatypes.S N)) in *.
  assert (K : m * (m * a k) <= m * (S - b)) by (apply Rmult_le_compat_l; lra).
  assert (K2 : m * ((m + 1) * a k) <= m * S); [|apply (Rmult_le_reg_l m); lra].
  assert (m * a k <= S - b) by exact Hb. nra.
Qed.

Lemma dot_flip n (J g xs : nat -> R) a b : a + dot n J (fun i => xs i - g i) <= b -> a - b <= dot n J (fun i => g i - xs i).
Proof.
  intro H. replace (dot n J (fun i => g i - xs i)) with (- dot n J (fun i => xs i - g i)); [lra|]. unfold dot. clear H.
  induction n as [|n IH]; cbn [sumn]; [change (@zero R R_ops) with 0; ring|]. rewrite <- IH. change (@add R R_ops) with Rplus. ring.
Qed.

Section Convex.
Context (func : vector R -> outcome (vector R)) (jac : vector R -> outcome (matrix R)) (n m p : nat)
  (F : (nat -> R) -> nat -> R) (J : (nat -> R) -> nat -> nat -> R).
Hypothesis HF : computes func n m F.
Hypothesis HJ : computes_mat jac n p n J.
Hypothesis Hm : (0 < m)%nat. Hypothesis Hp : (0 < p)%nat. Hypothesis Hn : (0 < n)%nat.
Variables (L sigma : R).
Hypothesis Hs : 0 < sigma < 1.
Hypothesis HL : 0 < L.
Hypothesis Hsm : forall g t, 0 <= t <= 1 -> F (fun i => g i - t * J g 0%nat i) 0%nat <= F g 0%nat - t * sumsq n (J g 0%nat) + L / 2 * (t * t) * sumsq n (J g 0%nat).
Let c := sigma * Rmin 1 ((1 - sigma) / L).

Lemma c_pos : 0 < c.
Proof. unfold c. apply Rmult_lt_0_compat; [lra|]. apply Rmin_glb_lt; [lra|apply Rdiv_lt_0_compat; lra]. Qed.

(** The iterates as results of shorter runs. *)
Lemma prefix_runs fuel iters x0 g0 x : is_col x0 n g0 -> grad_min iters fuel sigma func jac x0 = Ret (Some x) ->
  exists (Y : nat -> vector R) (X : nat -> nat -> R), X 0%nat = g0 /\ Y iters = x /\
    (forall k, (k <= iters)%nat -> grad_min k fuel sigma func jac x0 = Ret (Some (Y k)) /\ is_col (Y k) n (X k)) /\
    (forall k, (k < iters)%nat -> F (X (S k)) 0%nat <= F (X k) 0%nat - c * sumsq n (J (X k) 0%nat)).
Proof.
  intros Hx. revert x. induction iters as [|N IH]; intros x E.
  - cbn in E. injection E as <-. exists (fun _ => x0), (fun _ => g0). split; [reflexivity|]. split; [reflexivity|]. split; [|lia].
    intros k Hk. replace k with 0%nat by lia. split; [reflexivity|exact Hx].
  - replace (S N) with (N + 1)%nat in E by lia. rewrite grad_min_split in E.
    destruct (grad_min N fuel sigma func jac x0) as [[y|]|] eqn:EN; try discriminate.
    destruct (IH y eq_refl) as (Y & X & X0 & YN & Hk & Hd). destruct (Hk N (Nat.le_refl _)) as (_ & HyN). rewrite YN in HyN.
    pose proof (grad_min_spec func jac n m p F J HF HJ Hm Hp Hn fuel sigma 1 y (X N) HyN _ E) as (X1 & a & E0 & Hc & Hst).
    destruct (Hst 0%nat ltac:(lia)) as (_ & E1 & Ha & Hb).
    exists (fun k => if (k <=? N)%nat then Y k else x), (fun k => if (k <=? N)%nat then X k else X1 1%nat).
    assert (EQ : forall k, (k <= N)%nat -> (k <=? N)%nat = true) by (intros; apply Nat.leb_le; lia).
    assert (EF : (S N <=? N)%nat = false) by (apply Nat.leb_gt; lia).
    split; [exact X0|]. split; [now rewrite EF|]. split.
    + intros k Hk'. destruct (Nat.eq_dec k (S N)) as [->|D].
      * rewrite EF. split; [|exact Hc]. replace (S N) with (N + 1)%nat by lia. rewrite grad_min_split, EN. exact E.
      * rewrite EQ by lia. apply Hk. lia.
    + intros k Hk'. rewrite (EQ k) by lia. destruct (Nat.eq_dec k N) as [->|D].
      * rewrite EF. rewrite E1, E0. unfold c. rewrite E0 in Ha, Hb.
        pose proof (step_lower n (fun g => F g 0%nat) (fun g => J g 0%nat) L L sigma Hs ltac:(lra) Hsm (X N) (a 0%nat) Ha Hb) as Q. cbv beta in Q.
        rewrite Rmult_assoc. exact Q.
      * rewrite EQ by lia. apply Hd. lia.
Qed.

Lemma stationary fuel iters x0 g0 x low : is_col x0 n g0 -> grad_min iters fuel sigma func jac x0 = Ret (Some x) -> (0 < iters)%nat ->
  (forall g, low <= F g 0%nat) ->
  exists k y g, (k < iters)%nat /\ grad_min k fuel sigma func jac x0 = Ret (Some y) /\ is_col y n g /\
    c * INR iters * sumsq n (J g 0%nat) <= F g0 0%nat - low.
Proof.
  intros Hx E HN Hlow. destruct (prefix_runs fuel iters x0 g0 x Hx E) as (Y & X & X0 & _ & Hk & Hd).
  assert (T : forall N, (N <= iters)%nat -> sumn N (fun k => c * sumsq n (J (X k) 0%nat)) <= F (X 0%nat) 0%nat - F (X N) 0%nat).
  { induction N as [|N IH]; intros H; [cbn; change (@zero R R_ops) with 0; lra|]. cbn [sumn]. change (@add R R_ops) with Rplus.
    specialize (IH ltac:(lia)). specialize (Hd N ltac:(lia)). lra. }
  specialize (T iters (Nat.le_refl _)). pose proof (Hlow (X iters)) as Hl. rewrite X0 in T.
  assert (T' : sumn iters (fun k => c * sumsq n (J (X k) 0%nat)) <= F g0 0%nat - low) by (eapply Rle_trans; [exact T|]; lra).
  destruct (avg_le iters _ (F g0 0%nat - low) HN T') as (k & Hk' & Hb).
  exists k, (Y k), (X k). destruct (Hk k ltac:(lia)) as (A & B). split; [exact Hk'|]. split; [exact A|]. split; [exact B|]. lra.
Qed.

Lemma sublinear fuel iters x0 g0 x (xs : nat -> R) R2 : is_col x0 n g0 -> grad_min iters fuel sigma func jac x0 = Ret (Some x) ->
  (forall g, F xs 0%nat <= F g 0%nat) ->
  (forall g, F g 0%nat - F xs 0%nat <= dot n (J g 0%nat) (fun i => g i - xs i)) ->
  (forall g, F g 0%nat <= F g0 0%nat -> sumsq n (fun i => g i - xs i) <= R2) ->
  exists g, is_col x n g /\ c * INR iters * (F g 0%nat - F xs 0%nat) <= R2.
Proof.
  intros Hx E Hmin Hcv Hlev. destruct (prefix_runs fuel iters x0 g0 x Hx E) as (Y & X & X0 & YN & Hk & Hd).
  exists (X iters). destruct (Hk iters (Nat.le_refl _)) as (_ & Hc). rewrite YN in Hc. split; [exact Hc|].
  pose proof c_pos as C0.
  assert (MON : forall k, (k <= iters)%nat -> F (X k) 0%nat <= F g0 0%nat).
  { induction k as [|k IH]; intros H; [rewrite X0; lra|]. specialize (Hd k ltac:(lia)). specialize (IH ltac:(lia)).
    pose proof (sumsq_nonneg n (J (X k) 0%nat)) as Q. pose proof (Rmult_le_pos _ _ (Rlt_le _ _ C0) Q). lra. }
  assert (R0 : 0 <= R2). { eapply Rle_trans; [apply sumsq_nonneg|apply (Hlev g0); lra]. }
  assert (GAP : forall k, (k <= iters)%nat -> let d := F (X k) 0%nat - F xs 0%nat in 0 <= d /\ d * d <= sumsq n (J (X k) 0%nat) * R2).
  { intros k H d. pose proof (Hmin (X k)) as M. pose proof (Hcv (X k)) as V. split; [unfold d; lra|].
    pose proof (cauchy_schwarz_sq n (J (X k) 0%nat) (fun i => X k i - xs i)) as CS. fold (dot n (J (X k) 0%nat) (fun i => X k i - xs i)) in CS.
    set (e := dot n (J (X k) 0%nat) (fun i => X k i - xs i)) in *.
    assert (d * d <= e * e) by (apply Rmult_le_compat; unfold d; lra).
    eapply Rle_trans; [eassumption|]. eapply Rle_trans; [exact CS|]. apply Rmult_le_compat_l; [apply sumsq_nonneg|]. apply Hlev. apply MON. exact H. }
  assert (T : forall k, (k <= iters)%nat -> c * INR k * (F (X k) 0%nat - F xs 0%nat) <= R2).
  { induction k as [|k IH]; intros H; [cbn [INR]; lra|]. specialize (IH ltac:(lia)). specialize (Hd k ltac:(lia)).
    destruct (GAP k ltac:(lia)) as (G0 & G1). destruct (GAP (S k) H) as (G2 & G3). set (d := F (X k) 0%nat - F xs 0%nat) in *. set (d' := F (X (S k)) 0%nat - F xs 0%nat) in *.
    set (q := sumsq n (J (X k) 0%nat)) in *. assert (Q0 : 0 <= q) by apply sumsq_nonneg.
    assert (D : d' <= d - c * q) by (unfold d, d'; lra).
    destruct (Req_dec R2 0) as [Z|Z].
    - rewrite Z in *. assert (d' = 0) by nra. rewrite H0. lra.
    - assert (0 < R2) by lra. rewrite S_INR. set (k' := INR k) in *. assert (K0 : 0 <= k') by apply pos_INR.
      apply (Rmult_le_reg_l R2); [lra|].
      assert (D1 : R2 * d' <= R2 * d - c * (d * d)).
      { assert (R2 * d' <= R2 * (d - c * q)) by (apply Rmult_le_compat_l; lra). assert (c * (d * d) <= c * (q * R2)) by (apply Rmult_le_compat_l; lra). lra. }
      assert (P0 : 0 <= c * (k' + 1)) by (apply Rmult_le_pos; lra).
      assert (D2 : c * (k' + 1) * (R2 * d') <= c * (k' + 1) * (R2 * d - c * (d * d))) by (apply Rmult_le_compat_l; lra).
      (* with u = c d and k' u <= R2: (k'+1) u (R2 - u) <= R2^2 *)
      set (u := c * d) in *. assert (U0 : 0 <= u) by (apply Rmult_le_pos; lra). assert (KU : k' * u <= R2) by (unfold u; lra).
      assert (Z2 : (k' + 1) * (u * (R2 - u)) <= R2 * R2).
      { destruct (Rle_dec u R2) as [U1|U1].
        - assert (k' * u * (R2 - u) <= R2 * (R2 - u)) by (apply Rmult_le_compat_r; lra). nra.
        - assert ((k' + 1) * (u * (u - R2)) >= 0) by (apply Rle_ge, Rmult_le_pos; [lra|apply Rmult_le_pos; lra]). nra. }
      replace (R2 * (c * (k' + 1) * d')) with (c * (k' + 1) * (R2 * d')) by ring.
      eapply Rle_trans; [exact D2|]. replace (c * (k' + 1) * (R2 * d - c * (d * d))) with ((k' + 1) * (u * (R2 - u))) by (unfold u; ring). exact Z2. }
  apply T. lia.
Qed.
End Convex.

(** sqrt(1 + x^2): smooth and convex, but without a linear rate. *)
Definition hub_func (v : vector R) : outcome (vector R) := let! x := vvget v 0 in Ret (mkMatrix 1 1 [sqrt (1 + x * x)]).
Definition hub_jac (v : vector R) : outcome (matrix R) := let! x := vvget v 0 in Ret (mkMatrix 1 1 [x / sqrt (1 + x * x)]).
Lemma hub_ge x : 1 <= sqrt (1 + x * x).
Proof. rewrite <- sqrt_1 at 1. apply sqrt_le_1_alt. nra. Qed.
Lemma hub_sq x : sqrt (1 + x * x) * sqrt (1 + x * x) = 1 + x * x.
Proof. apply sqrt_sqrt. nra. Qed.
Lemma hub_smooth x t : 0 <= t <= 1 -> let s := sqrt (1 + x * x) in let y := x - t * (x / s) in
  sqrt (1 + y * y) <= s - t * (x / s * (x / s)) + 1 / 2 * (t * t) * (x / s * (x / s)).
Proof.
  intros Ht s y. pose proof (hub_ge x) as S1. pose proof (hub_sq x) as S2. fold s in S1, S2. set (g := x / s).
  assert (XG : x = g * s) by (unfold g; field; lra).
  pose proof (hub_ge y) as R1. pose proof (hub_sq y) as R2. set (r := sqrt (1 + y * y)) in *.
  assert (H0 : 2 * s * r <= s * s + r * r) by (pose proof (Rle_0_sqr (s - r)) as Q; unfold Rsqr in Q; lra).
  assert (E : r * r = s * s - 2 * s * (t * (g * g)) + t * t * (g * g)). { rewrite R2, S2. unfold y. fold g. clearbody g. rewrite XG. ring. }
  assert (Q : 0 <= t * t * (g * g)) by (apply Rmult_le_pos; [apply Rmult_le_pos; lra|apply Rle_0_sqr]). apply (Rmult_le_reg_l (2 * s)); [lra|].
  assert (1 * (t * t * (g * g)) <= s * (t * t * (g * g))) by (apply Rmult_le_compat_r; lra). lra.
Qed.
Lemma hub_convex x : sqrt (1 + x * x) - 1 <= x / sqrt (1 + x * x) * x.
Proof.
  pose proof (hub_ge x) as S1. pose proof (hub_sq x) as S2. set (s := sqrt (1 + x * x)) in *.
  apply (Rmult_le_reg_l s); [lra|]. replace (s * (x / s * x)) with (x * x) by (field; lra). lra.
Qed.
Lemma hub_level x a : sqrt (1 + x * x) <= sqrt (1 + a * a) -> x * x <= a * a.
Proof.
  intro H. pose proof (hub_sq x). pose proof (hub_sq a). pose proof (hub_ge x).
  assert (sqrt (1 + x * x) * sqrt (1 + x * x) <= sqrt (1 + a * a) * sqrt (1 + a * a)) by (apply Rmult_le_compat; lra). lra.
Qed.
Lemma hub_computes : computes hub_func 1 1 (fun g _ => sqrt (1 + g 0%nat * g 0%nat)).
Proof. intros x g H. unfold hub_func. rewrite (col_get x 1 g 0 H) by lia. cbn [bind]. eexists. split; [reflexivity|]. apply tan_col. Qed.
Lemma hub_jac_computes : computes_mat hub_jac 1 1 1 (fun g _ _ => g 0%nat / sqrt (1 + g 0%nat * g 0%nat)).
Proof. intros x g H. unfold hub_jac. rewrite (col_get x 1 g 0 H) by lia. cbn [bind]. eexists. split; [reflexivity|]. apply tan_col. Qed.
