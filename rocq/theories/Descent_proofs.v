(** Gradient descent and Newton's method. *)
From Coq Require Import Arith List Bool Lia Reals Lra.
From Verif Require Import Outcome Scalar RealOps Matrix_model Transpose_model Vector_model LU_model Decomp_model Ode_model Optim_model
  Matrix_spec LU_spec Decomp_spec Optim_spec Ode_spec Matrix_proofs Vector_proofs Sums Subst_proofs LUProps_proofs Norm_proofs Ode_proofs OdeOrder_proofs OdeConseq_proofs Newton_proofs.
Import ListNotations.
Local Open Scope R_scope.

Lemma eval0_spec {T} {O : Ops T} (func : vector T -> outcome (vector T)) n m F x g : computes func n m F -> (0 < m)%nat -> is_col x n g -> eval0 func x = Ret (F g 0%nat).
Proof. intros HF Hm Hx. unfold eval0. destruct (HF x g Hx) as (y & E & Hy). rewrite E. cbn [bind]. apply (col_get y m _ 0 Hy Hm). Qed.

Lemma grad_at_spec {T} {O : Ops T} (jac : vector T -> outcome (matrix T)) n p J x g : computes_mat jac n p n J -> (0 < p)%nat -> (0 < n)%nat -> is_col x n g ->
  exists v, grad_at jac x = Ret v /\ is_col v n (J g 0%nat).
Proof.
  intros HJ Hp Hn Hx. unfold grad_at. destruct (HJ x g Hx) as (A & E & HA). rewrite E. cbn [bind].
  destruct (mget_row_spec A p n _ 0 HA Hp) as (r & E2 & Hr). rewrite E2. cbn [bind].
  exact (vtranspose_row r n _ Hn Hr).
Qed.

Lemma vneg_col v n (f : nat -> R) : is_col v n f -> is_col (vneg v) n (fun i => - f i).
Proof. intros H. exact (mapply_spec (fun x => - x) v n 1 _ H). Qed.

(** F depends only on the first n entries. *)
Lemma computes_ext (func : vector R -> outcome (vector R)) n m F g h i : computes func n m F -> (forall k, (k < n)%nat -> g k = h k) -> (i < m)%nat -> F g i = F h i.
Proof.
  intros HF Hgh Hi.
  destruct (vnew_column_spec (T:=R) n (map g (seq 0 n)) 0) as (x & E & Hx); [rewrite map_length, seq_length; reflexivity|].
  assert (Hg : is_col x n g) by (revert Hx; apply col_ext; intros k Hk; apply (nth_map_seq g n k 0 Hk)).
  assert (Hh : is_col x n h) by (revert Hg; apply col_ext; exact Hgh).
  destruct (HF x g Hg) as (y & E1 & Hy). destruct (HF x h Hh) as (y' & E2 & Hy'). rewrite E1 in E2. injection E2 as <-.
  pose proof (col_get y m _ i Hy Hi) as G1. rewrite (col_get y m _ i Hy' Hi) in G1. congruence.
Qed.
Lemma computes_mat_ext (jac : vector R -> outcome (matrix R)) n p q J g h i j : computes_mat jac n p q J -> (forall k, (k < n)%nat -> g k = h k) ->
  (i < p)%nat -> (j < q)%nat -> J g i j = J h i j.
Proof.
  intros HJ Hgh Hi Hj.
  destruct (vnew_column_spec (T:=R) n (map g (seq 0 n)) 0) as (x & E & Hx); [rewrite map_length, seq_length; reflexivity|].
  assert (Hg : is_col x n g) by (revert Hx; apply col_ext; intros k Hk; apply (nth_map_seq g n k 0 Hk)).
  assert (Hh : is_col x n h) by (revert Hg; apply col_ext; exact Hgh).
  destruct (HJ x g Hg) as (y & E1 & Hy). destruct (HJ x h Hh) as (y' & E2 & Hy'). rewrite E1 in E2. injection E2 as <-.
  exact (is_mat_entry_unique y p q _ _ i j Hy Hy' Hi Hj).
Qed.

(** ** Gradient descent *)
Section Grad.
Variables (func : vector R -> outcome (vector R)) (jac : vector R -> outcome (matrix R)) (n m p : nat).
Variables (F : (nat -> R) -> nat -> R) (J : (nat -> R) -> nat -> nat -> R).
Hypothesis HF : computes func n m F.
Hypothesis HJ : computes_mat jac n p n J.
Hypothesis Hm : (0 < m)%nat.
Hypothesis Hp : (0 < p)%nat.
Hypothesis Hn : (0 < n)%nat.
Let phi g := F g 0%nat.
Let grd g := J g 0%nat.

Lemma grad_search_step fuel sigma x g v alpha : is_col x n g -> is_col v n (fun i => - grd g i) ->
  grad_search (S fuel) sigma func x v alpha =
  (if R_leb (phi (fun i => g i - alpha * grd g i)) (phi g - sigma * (alpha * sumsq n (grd g)))
   then Ret (Some alpha) else grad_search fuel sigma func x v (alpha / 2)).
Proof.
  intros Hx Hv. cbn [grad_search]. pose proof (vmul_scalar_col v n _ alpha Hv) as Hva.
  destruct (vadd_col x _ n g _ Hx Hva) as (r & E & Hr). rewrite E. cbn [bind].
  rewrite (eval0_spec func n m F r _ HF Hm Hr). cbn [bind].
  rewrite (vdotp_spec _ v n _ _ Hn Hva Hv). cbn [bind].
  rewrite (eval0_spec func n m F x g HF Hm Hx). cbn [bind]. cbn [leb sub mul add R_ops].
  replace (F (fun i => g i + - grd g i * alpha) 0%nat) with (phi (fun i => g i - alpha * grd g i))
    by (unfold phi; apply (computes_ext func n m F); [exact HF|intros; ring|exact Hm]).
  replace (sumn n (fun i => - grd g i * alpha * - grd g i)) with (alpha * sumsq n (grd g)); [reflexivity|].
  unfold sumsq. rewrite <- sumR_mul_l. apply sumR_ext. intros; ring.
Qed.

(** The test of the line search for the step 1/2^a. *)
Definition armijo sigma g a : Prop :=
  phi (fun i => g i - / 2 ^ a * grd g i) <= phi g - sigma * (/ 2 ^ a * sumsq n (grd g)).

Lemma grad_search_spec sigma x g v : is_col x n g -> is_col v n (fun i => - grd g i) -> forall fuel a0,
  grad_search fuel sigma func x v (/ 2 ^ a0) = Ret None /\ (forall a, (a0 <= a < a0 + fuel)%nat -> ~ armijo sigma g a) \/
  exists a, grad_search fuel sigma func x v (/ 2 ^ a0) = Ret (Some (/ 2 ^ a)) /\ (a0 <= a < a0 + fuel)%nat /\ armijo sigma g a /\
    forall b, (a0 <= b < a)%nat -> ~ armijo sigma g b.
Proof.
  intros Hx Hv. induction fuel as [|fuel IH]; intros a0.
  - left. split; [reflexivity|intros; lia].
  - rewrite (grad_search_step fuel sigma x g v _ Hx Hv).
    destruct (R_leb _ _) eqn:E.
    + apply R_leb_true in E. right. exists a0. split; [reflexivity|]. split; [lia|]. split; [exact E|intros; lia].
    + apply R_leb_false in E. assert (Hna : ~ armijo sigma g a0) by (unfold armijo; lra).
      replace (/ 2 ^ a0 / 2) with (/ 2 ^ S a0) by (simpl; field; apply pow_nonzero; lra).
      destruct (IH (S a0)) as [(E1 & Hall)|(a & E1 & Ha & Har & Hb)].
      * left. split; [exact E1|]. intros a Ha. destruct (Nat.eq_dec a a0) as [->|]; [exact Hna|apply Hall; lia].
      * right. exists a. split; [exact E1|]. split; [lia|]. split; [exact Har|].
        intros b Hbb. destruct (Nat.eq_dec b a0) as [->|]; [exact Hna|apply Hb; lia].
Qed.

Lemma grad_min_step iters fuel sigma x g : is_col x n g ->
  (grad_min (S iters) fuel sigma func jac x = Ret None /\ forall a, (a < fuel)%nat -> ~ armijo sigma g a) \/
  exists a x', is_col x' n (fun i => g i - / 2 ^ a * grd g i) /\ (a < fuel)%nat /\ armijo sigma g a /\
    (forall b, (b < a)%nat -> ~ armijo sigma g b) /\
    grad_min (S iters) fuel sigma func jac x = grad_min iters fuel sigma func jac x'.
Proof.
  intros Hx. cbn [grad_min]. destruct (grad_at_spec jac n p J x g HJ Hp Hn Hx) as (v & E & Hv). rewrite E. cbn [bind].
  pose proof (vneg_col v n _ Hv) as Hv'. change (@one R R_ops) with 1. replace 1 with (/ 2 ^ 0) by (simpl; lra).
  destruct (grad_search_spec sigma x g _ Hx Hv' fuel 0) as [(E1 & Hall)|(a & E1 & Ha & Har & Hb)]; rewrite E1; cbn [bind].
  - left. split; [reflexivity|]. intros a Ha. apply Hall. lia.
  - right. destruct (vadd_col x _ n g _ Hx (vmul_scalar_col _ n _ (/ 2 ^ a) Hv')) as (x' & E2 & Hx'). rewrite E2. cbn [bind].
    exists a, x'. split; [revert Hx'; apply col_ext; intros i Hi; cbn [add mul R_ops]; unfold grd; ring|].
    split; [lia|]. split; [exact Har|]. split; [intros b Hbb; apply Hb; lia|reflexivity].
Qed.

(** The whole run. *)
Lemma grad_min_spec fuel sigma : forall iters x0 g0, is_col x0 n g0 -> forall r, grad_min iters fuel sigma func jac x0 = Ret r ->
  match r with
  | None => True
  | Some x => exists X a, X 0%nat = g0 /\ is_col x n (X iters) /\
      forall k, (k < iters)%nat -> (a k < fuel)%nat /\ X (S k) = (fun i => X k i - / 2 ^ a k * grd (X k) i) /\ armijo sigma (X k) (a k) /\
        forall b, (b < a k)%nat -> ~ armijo sigma (X k) b
  end.
Proof.
  induction iters as [|iters IH]; intros x0 g0 Hx r Er.
  - injection Er as <-. exists (fun _ => g0), (fun _ => 0%nat). split; [reflexivity|]. split; [exact Hx|intros; lia].
  - destruct (grad_min_step iters fuel sigma x0 g0 Hx) as [(E & _)|(a & x' & Hx' & Ha & Har & Hb & E)]; rewrite E in Er.
    + injection Er as <-. exact I.
    + specialize (IH x' _ Hx' r Er). destruct r as [x|]; [|exact I]. destruct IH as (X & aa & H0 & Hc & Hk).
      exists (fun k => match k with O => g0 | S k => X k end), (fun k => match k with O => a | S k => aa k end).
      split; [reflexivity|]. split; [exact Hc|]. intros [|k] Hlt.
      * split; [exact Ha|]. split; [exact H0|]. split; [exact Har|exact Hb].
      * apply Hk. lia.
Qed.

Lemma grad_min_no_panic fuel sigma : forall iters x0 g0, is_col x0 n g0 -> exists r, grad_min iters fuel sigma func jac x0 = Ret r.
Proof.
  induction iters as [|iters IH]; intros x0 g0 Hx; [eexists; reflexivity|].
  destruct (grad_min_step iters fuel sigma x0 g0 Hx) as [(E & _)|(a & x' & Hx' & Ha & Har & Hb & E)]; rewrite E; eauto.
Qed.

(** A descent direction is accepted eventually. *)
Definition true_gradient g : Prop :=
  derivable_pt_lim (fun t => phi (fun i => g i - t * grd g i)) 0 (- sumsq n (grd g)).

Lemma armijo_exists sigma g : sigma < 1 -> true_gradient g -> exists a, armijo sigma g a.
Proof.
  intros Hs Hg. destruct (Req_dec (sumsq n (grd g)) 0) as [H0|H0].
  - exists 0%nat. unfold armijo. rewrite H0. replace (phi (fun i => g i - / 2 ^ 0 * grd g i)) with (phi g); [lra|].
    apply (computes_ext func n m F); [exact HF| |exact Hm]. intros k Hk. pose proof (proj1 (sumsq_zero n (grd g)) H0 k Hk). unfold grd in *. rewrite H. ring.
  - pose proof (sumsq_nonneg n (grd g)) as Hnn. set (q := sumsq n (grd g)) in *. assert (Hq : 0 < q) by lra.
    destruct (Hg ((1 - sigma) * q)) as (dl & Hd); [apply Rmult_lt_0_compat; lra|].
    destruct (pow_lt_1_zero (/ 2)) with (y := pos dl) as (N & HN); [rewrite Rabs_right; lra|apply cond_pos|].
    exists N. unfold armijo. assert (Hpos : 0 < / 2 ^ N) by (apply Rinv_0_lt_compat, pow_lt; lra).
    specialize (HN N (le_n N)).
    assert (Hl : Rabs (/ 2 ^ N) < dl). { rewrite <- pow_inv. exact HN. }
    specialize (Hd (/ 2 ^ N)). rewrite Rplus_0_l in Hd. specialize (Hd ltac:(lra) Hl). cbv beta in Hd.
    replace (phi (fun i => g i - 0 * grd g i)) with (phi g) in Hd by (apply (computes_ext func n m F); [exact HF|intros; ring|exact Hm]).
    set (A := phi (fun i => g i - / 2 ^ N * grd g i)) in *. set (t := / 2 ^ N) in *. fold q in Hd.
    apply Rabs_def2 in Hd. destruct Hd as [Hd _].
    assert ((A - phi g) / t < - sigma * q) by lra.
    apply (Rmult_lt_compat_r t) in H; [|exact Hpos]. unfold Rdiv in H. rewrite Rmult_assoc, Rinv_l, Rmult_1_r in H by lra. fold q. lra.
Qed.

Lemma grad_min_mono sigma : forall iters f1 f2 x0 x, (f1 <= f2)%nat ->
  grad_min iters f1 sigma func jac x0 = Ret (Some x) -> grad_min iters f2 sigma func jac x0 = Ret (Some x).
Proof.
  assert (Hs : forall f1 f2 x v al r, (f1 <= f2)%nat -> grad_search f1 sigma func x v al = Ret (Some r) -> grad_search f2 sigma func x v al = Ret (Some r)).
  { induction f1 as [|f1 IH]; intros f2 x v al r Hf E; [discriminate E|]. destruct f2 as [|f2]; [lia|]. cbn [grad_search] in E |- *.
    destruct (vadd x (vmul_scalar v al)) as [r1|]; [cbn [bind] in E|-*|discriminate E].
    destruct (eval0 func r1) as [r2|]; [cbn [bind] in E|-*|discriminate E].
    destruct (vdotp (vmul_scalar v al) v) as [r3|]; [cbn [bind] in E|-*|discriminate E].
    destruct (eval0 func x) as [r4|]; [cbn [bind] in E|-*|discriminate E].
    destruct (leb r2 _); [exact E|]. apply (IH f2); [lia|exact E]. }
  induction iters as [|iters IH]; intros f1 f2 x0 x Hf E; [exact E|]. cbn [grad_min] in E |- *.
  destruct (grad_at jac x0) as [g|]; [cbn [bind] in E|-*|discriminate E].
  destruct (grad_search f1 sigma func x0 (vneg g) one) as [[al|]|] eqn:Es; try discriminate E.
  rewrite (Hs _ _ _ _ _ _ Hf Es). cbn [bind] in E |- *.
  destruct (vadd x0 (vmul_scalar (vneg g) al)) as [x1|]; [|discriminate E]. cbn [bind] in E |- *. eapply IH; eauto.
Qed.

Lemma grad_min_terminates sigma : sigma < 1 -> (forall g, true_gradient g) ->
  forall iters x0 g0, is_col x0 n g0 -> exists fuel0 x, forall fuel, (fuel0 <= fuel)%nat -> grad_min iters fuel sigma func jac x0 = Ret (Some x).
Proof.
  intros Hs Hg. 
  assert (H : forall iters x0 g0, is_col x0 n g0 -> exists fuel0 x, grad_min iters fuel0 sigma func jac x0 = Ret (Some x)).
  { induction iters as [|iters IH]; intros x0 g0 Hx; [exists 0%nat, x0; reflexivity|].
    destruct (armijo_exists sigma g0 Hs (Hg g0)) as (N & HN).
    destruct (grad_min_step iters (S N) sigma x0 g0 Hx) as [(_ & Hno)|(a & x' & Hx' & Ha & Har & Hb & _)]; [exfalso; apply (Hno N); [lia|exact HN]|].
    destruct (IH x' _ Hx') as (f1 & x & E1).
    exists (Nat.max f1 (S N)), x.
    destruct (grad_min_step iters (Nat.max f1 (S N)) sigma x0 g0 Hx) as [(_ & Hno)|(a2 & x2 & Hx2 & Ha2 & Har2 & Hb2 & E2)]; [exfalso; apply (Hno N); [lia|exact HN]|].
    assert (a2 = a). { destruct (lt_eq_lt_dec a2 a) as [[L|L]|L]; [exfalso; exact (Hb a2 L Har2)|exact L|exfalso; exact (Hb2 a L Har)]. }
    subst a2. rewrite E2. replace x2 with x' by (exact (is_mat_unique _ _ _ _ _ Hx' Hx2)).
    apply (grad_min_mono sigma iters f1); [lia|exact E1]. }
  intros iters x0 g0 Hx. destruct (H iters x0 g0 Hx) as (f0 & x & E). exists f0, x. intros fuel Hf. exact (grad_min_mono sigma iters f0 fuel x0 x Hf E).
Qed.
End Grad.

(** Linear convergence under smoothness and the Polyak-Lojasiewicz inequality. *)
Section Rate.
Variables (n : nat) (phi : (nat -> R) -> R) (grd : (nat -> R) -> nat -> R) (L mu sigma low : R).
Hypothesis Hsig : 0 < sigma < 1.
Hypothesis HL : 0 < mu <= L.
Hypothesis Hlow : forall g, low <= phi g.
Hypothesis Hsm : forall g t, 0 <= t <= 1 -> phi (fun i => g i - t * grd g i) <= phi g - t * sumsq n (grd g) + L / 2 * (t * t) * sumsq n (grd g).
Hypothesis Hpl : forall g, 2 * mu * (phi g - low) <= sumsq n (grd g).
Let arm g a := phi (fun i => g i - / 2 ^ a * grd g i) <= phi g - sigma * (/ 2 ^ a * sumsq n (grd g)).
Definition rate := 1 - 2 * mu * sigma * Rmin 1 ((1 - sigma) / L).

Lemma inv2_range a : 0 < / 2 ^ a <= 1.
Proof. split; [apply Rinv_0_lt_compat, pow_lt; lra|]. rewrite <- Rinv_1. apply Rinv_le_contravar; [lra|]. apply pow_R1_Rle. lra. Qed.

Lemma step_lower g a : arm g a -> (forall b, (b < a)%nat -> ~ arm g b) -> 
  phi (fun i => g i - / 2 ^ a * grd g i) <= phi g - sigma * (Rmin 1 ((1 - sigma) / L) * sumsq n (grd g)).
Proof.
  intros Ha Hb. assert (Hc : Rmin 1 ((1 - sigma) / L) <= / 2 ^ a \/ sumsq n (grd g) = 0).
  { destruct a as [|a]; [left; simpl; rewrite Rinv_1; apply Rmin_l|].
    specialize (Hb a (Nat.lt_succ_diag_r a)). unfold arm in Hb. apply Rnot_le_lt in Hb.
    pose proof (inv2_range a) as Hr. pose proof (Hsm g (/ 2 ^ a) ltac:(lra)) as Hs. cbv beta in Hb.
    set (t := / 2 ^ a) in *. pose proof (sumsq_nonneg n (grd g)) as Hq. set (q := sumsq n (grd g)) in *.
    destruct (Req_dec q 0) as [H0|H0]; [right; exact H0|]. left. assert (0 < q) by lra.
    assert (Ht : 2 * (1 - sigma) < L * t).
    { apply (Rmult_lt_reg_r (t * q / 2)); [apply Rmult_lt_0_compat; [apply Rmult_lt_0_compat; lra|lra]|].
      replace (2 * (1 - sigma) * (t * q / 2)) with (t * q - sigma * (t * q)) by field.
      replace (L * t * (t * q / 2)) with (L / 2 * (t * t) * q) by field. lra. }
    apply Rle_trans with (1 := Rmin_r _ _). simpl. rewrite Rinv_mult. fold t.
    apply (Rmult_le_reg_l L); [lra|]. replace (L * ((1 - sigma) / L)) with (1 - sigma) by (field; lra). lra. }
  unfold arm in Ha. pose proof (sumsq_nonneg n (grd g)) as Hq. destruct Hc as [Hc|Hc]; [|rewrite Hc in *; lra].
  apply Rle_trans with (1 := Ha). apply Rplus_le_compat_l, Ropp_le_contravar, Rmult_le_compat_l; [lra|].
  apply Rmult_le_compat_r; assumption.
Qed.

Lemma rate_nonneg : 0 <= rate.
Proof.
  unfold rate. pose proof (Rmin_r 1 ((1 - sigma) / L)) as H.
  assert (H1 : 2 * mu * sigma * Rmin 1 ((1 - sigma) / L) <= 2 * mu * sigma * ((1 - sigma) / L)).
  { apply Rmult_le_compat_l; [|exact H]. apply Rmult_le_pos; lra. }
  assert (H2 : 2 * mu * sigma * ((1 - sigma) / L) <= 2 * sigma * (1 - sigma)).
  { replace (2 * mu * sigma * ((1 - sigma) / L)) with (2 * sigma * (1 - sigma) * (mu / L)) by (field; lra).
    rewrite <- (Rmult_1_r (2 * sigma * (1 - sigma))) at 2. apply Rmult_le_compat_l; [apply Rmult_le_pos; lra|].
    apply (Rmult_le_reg_r L); [lra|]. unfold Rdiv. rewrite Rmult_assoc, Rinv_l by lra. lra. }
  pose proof (Rle_0_sqr (2 * sigma - 1)) as H3. unfold Rsqr in H3. lra.
Qed.

Lemma rate_lt_1 : rate < 1.
Proof. unfold rate. assert (0 < Rmin 1 ((1 - sigma) / L)) by (apply Rmin_glb_lt; [lra|apply Rdiv_lt_0_compat; lra]).
  assert (0 < 2 * mu * sigma * Rmin 1 ((1 - sigma) / L)) by (repeat apply Rmult_lt_0_compat; lra). lra. Qed.

Lemma descent_rate (X : nat -> nat -> R) (a : nat -> nat) iters :
  (forall k, (k < iters)%nat -> X (S k) = (fun i => X k i - / 2 ^ a k * grd (X k) i) /\ arm (X k) (a k) /\ forall b, (b < a k)%nat -> ~ arm (X k) b) ->
  phi (X iters) - low <= rate ^ iters * (phi (X 0%nat) - low).
Proof.
  induction iters as [|k IH]; intros H; [simpl; lra|].
  specialize (IH (fun j Hj => H j ltac:(lia))). destruct (H k ltac:(lia)) as (E & Ha & Hb). rewrite E.
  pose proof (step_lower (X k) (a k) Ha Hb) as Hs. pose proof (Hpl (X k)) as Hp.
  set (c := Rmin 1 ((1 - sigma) / L)) in *.
  assert (Hc : 0 <= c) by (apply Rmin_glb; [lra|apply Rlt_le, Rdiv_lt_0_compat; lra]).
  assert (sigma * (c * (2 * mu * (phi (X k) - low))) <= sigma * (c * sumsq n (grd (X k)))).
  { apply Rmult_le_compat_l; [lra|]. apply Rmult_le_compat_l; assumption. }
  apply Rle_trans with (rate * (phi (X k) - low)).
  - unfold rate. fold c. set (u := phi (fun i => X k i - / 2 ^ a k * grd (X k) i)) in *. lra.
  - simpl. rewrite Rmult_assoc. apply Rmult_le_compat_l; [apply rate_nonneg|exact IH].
Qed.
End Rate.

(** sigma = 1 on x^2 *)
Definition sq_func (x : vector R) : outcome (vector R) := let! a := vvget x 0 in Ret (mkMatrix 1 1 [a * a]).
Definition sq_jac (x : vector R) : outcome (matrix R) := let! a := vvget x 0 in Ret (mkMatrix 1 1 [2 * a]).
Lemma sq_computes : computes sq_func 1 1 (fun g _ => g 0%nat * g 0%nat).
Proof. intros x g H. unfold sq_func. rewrite (col_get x 1 g 0 H) by lia. cbn [bind]. eexists. split; [reflexivity|]. apply tan_col. Qed.
Lemma sq_jac_computes : computes_mat sq_jac 1 1 1 (fun g _ _ => 2 * g 0%nat).
Proof. intros x g H. unfold sq_jac. rewrite (col_get x 1 g 0 H) by lia. cbn [bind]. eexists. split; [reflexivity|]. apply tan_col. Qed.

Lemma grad_min_sigma_1 fuel iters x g : is_col x 1 g -> g 0%nat <> 0 -> grad_min (S iters) fuel 1 sq_func sq_jac x = Ret None.
Proof.
  intros Hx Hg.
  destruct (grad_min_step sq_func sq_jac 1 1 1 _ _ sq_computes sq_jac_computes ltac:(lia) ltac:(lia) ltac:(lia) iters fuel 1 x g Hx)
    as [(E & _)|(a & x' & _ & _ & Har & _)]; [exact E|exfalso].
  unfold armijo, sumsq in Har. cbn [sumn zero add R_ops] in Har. pose proof (inv2_range a) as Ht. set (t := / 2 ^ a) in *.
  set (z := g 0%nat) in *. assert (0 < z * z) by (assert (Hz := Rsqr_pos_lt z Hg); exact Hz).
  assert (0 < t * t * (z * z)) by (apply Rmult_lt_0_compat; [apply Rmult_lt_0_compat; lra|assumption]). cbv beta zeta in Har. fold z in Har. nra.
Qed.

(** ** Newton's method *)
Section Newt.
Variables (func : vector R -> outcome (vector R)) (jac hess : vector R -> outcome (matrix R)) (n m p : nat).
Variables (F : (nat -> R) -> nat -> R) (J Hs : (nat -> R) -> nat -> nat -> R).
Hypothesis HF : computes func n m F.
Hypothesis HJ : computes_mat jac n p n J.
Hypothesis HH : computes_mat hess n n n Hs.
Hypothesis Hm : (0 < m)%nat.
Hypothesis Hp : (0 < p)%nat.
Hypothesis Hn : (0 < n)%nat.
Let phi g := F g 0%nat.
Let grd g := J g 0%nat.

(** W is what [hessian.solve(-gradient)] returns at g. *)
Definition newton_sol g W : Prop :=
  exists x A v w, is_col x n g /\ hess x = Ret A /\ is_col v n (fun i => - grd g i) /\ solve_vec A v = Ret (Ok w) /\ is_col w n W.
(** The direction: Newton's if it descends enough, else steepest descent. *)
Definition direction rho g D : Prop :=
  exists W, newton_sol g W /\
    ((dot n (grd g) W <= - rho * sumsq n (grd g) /\ D = W) \/
     (- rho * sumsq n (grd g) < dot n (grd g) W /\ D = (fun i => - grd g i))).

Lemma newton_dir_spec rho x g v : is_col x n g -> is_col v n (grd g) ->
  exists d D, newton_dir rho hess x v = Ret d /\ is_col d n D /\ direction rho g D.
Proof.
  intros Hx Hv. unfold newton_dir. destruct (HH x g Hx) as (A & E & HA). rewrite E. cbn [bind].
  pose proof (vneg_col v n _ Hv) as Hv'.
  destruct (solve_vec_total A n _ _ _ HA Hv') as (w & W & E1 & Hw). rewrite E1. cbn [bind].
  rewrite (vdotp_spec v v n _ _ Hn Hv Hv). cbn [bind]. rewrite (vdotp_spec v w n _ _ Hn Hv Hw). cbn [bind].
  assert (HW : newton_sol g W) by (exists x, A, (vneg v), w; auto).
  destruct (leb _ _) eqn:El.
  - exists w, W. split; [reflexivity|]. split; [exact Hw|]. exists W. split; [exact HW|]. left. apply R_leb_true in El. split; [exact El|reflexivity].
  - exists (vneg v), (fun i => - grd g i). split; [reflexivity|]. split; [exact Hv'|]. exists W. split; [exact HW|]. right.
    apply R_leb_false in El. split; [exact El|reflexivity].
Qed.

Definition armijo_dir sigma g D a : Prop :=
  phi (fun i => g i + / 2 ^ a * D i) <= phi g + sigma * / 2 ^ a * dot n (grd g) D.

Lemma newton_search_spec sigma x g d D : is_col x n g -> is_col d n D -> forall fuel a0,
  let go fuel a := newton_search fuel sigma func x d (phi g) (dot n (grd g) D) (/ 2 ^ a) (phi (fun i => g i + / 2 ^ a * D i)) in
  go fuel a0 = Ret None /\ (forall a, (a0 <= a <= a0 + fuel)%nat -> ~ armijo_dir sigma g D a) \/
  exists a, go fuel a0 = Ret (Some (/ 2 ^ a)) /\ (a0 <= a <= a0 + fuel)%nat /\ armijo_dir sigma g D a /\
    forall b, (a0 <= b < a)%nat -> ~ armijo_dir sigma g D b.
Proof.
  intros Hx Hd. induction fuel as [|fuel IH]; intros a0 go; subst go; cbv beta; cbn [newton_search];
    cbn [ltb add mul R_ops]; destruct (R_ltb _ _) eqn:El.
  1,3: apply R_ltb_true in El; assert (Hna : ~ armijo_dir sigma g D a0) by (unfold armijo_dir; lra).
  - left. split; [reflexivity|]. intros a Ha. replace a with a0 by lia. exact Hna.
  - destruct (vadd_col x _ n g _ Hx (vmul_scalar_col d n D (/ 2 ^ a0 / 2) Hd)) as (r & E & Hr).
    change (@div R R_ops (/ 2 ^ a0) two) with (/ 2 ^ a0 / 2). rewrite E. cbn [bind]. rewrite (eval0_spec func n m F r _ HF Hm Hr). cbn [bind].
    replace (F _ 0%nat) with (phi (fun i => g i + / 2 ^ S a0 * D i))
     by (unfold phi; apply (computes_ext func n m F); [exact HF|intros; cbn [add mul R_ops]; simpl; field; apply pow_nonzero; lra|exact Hm]).
    replace (/ 2 ^ a0 / 2) with (/ 2 ^ S a0) by (simpl; field; apply pow_nonzero; lra).
    destruct (IH (S a0)) as [(E1 & Hall)|(a & E1 & Ha & Har & Hb)].
    + left. split; [exact E1|]. intros a Ha. destruct (Nat.eq_dec a a0) as [->|]; [exact Hna|apply Hall; lia].
    + right. exists a. split; [exact E1|]. split; [lia|]. split; [exact Har|].
      intros b Hbb. destruct (Nat.eq_dec b a0) as [->|]; [exact Hna|apply Hb; lia].
  - apply R_ltb_false in El. right. exists a0. split; [reflexivity|]. split; [lia|]. split; [unfold armijo_dir; lra|intros; lia].
  - apply R_ltb_false in El. right. exists a0. split; [reflexivity|]. split; [lia|]. split; [unfold armijo_dir; lra|intros; lia].
Qed.

Lemma newton_min_step iters fuel sigma rho x g : is_col x n g -> exists D, direction rho g D /\
  ((newton_min (S iters) fuel sigma rho func jac hess x = Ret None /\ forall a, (a <= fuel)%nat -> ~ armijo_dir sigma g D a) \/
  exists a x', is_col x' n (fun i => g i + / 2 ^ a * D i) /\ (a <= fuel)%nat /\ armijo_dir sigma g D a /\
    (forall b, (b < a)%nat -> ~ armijo_dir sigma g D b) /\
    newton_min (S iters) fuel sigma rho func jac hess x = newton_min iters fuel sigma rho func jac hess x').
Proof.
  intros Hx. cbn [newton_min]. destruct (grad_at_spec jac n p J x g HJ Hp Hn Hx) as (v & E & Hv). rewrite E. cbn [bind].
  destruct (newton_dir_spec rho x g v Hx Hv) as (d & D & E1 & Hd & HD). rewrite E1. cbn [bind]. exists D. split; [exact HD|].
  destruct (vadd_col x _ n g _ Hx (vmul_scalar_col d n D 1 Hd)) as (r & E2 & Hr). change (@one R R_ops) with 1.
  rewrite E2. cbn [bind]. rewrite (eval0_spec func n m F r _ HF Hm Hr). cbn [bind]. rewrite (eval0_spec func n m F x g HF Hm Hx). cbn [bind].
  rewrite (vdotp_spec v d n _ _ Hn Hv Hd). cbn [bind].
  replace (F (fun i => add (g i) (mul (D i) 1)) 0%nat) with (phi (fun i => g i + / 2 ^ 0 * D i))
   by (unfold phi; apply (computes_ext func n m F); [exact HF|intros; cbn [add mul R_ops]; simpl; field|exact Hm]).
  change (sumn n (fun i => mul (J g 0%nat i) (D i))) with (dot n (grd g) D). fold (phi g).
  replace 1 with (/ 2 ^ 0) by (simpl; lra).
  destruct (newton_search_spec sigma x g d D Hx Hd fuel 0) as [(E3 & Hall)|(a & E3 & Ha & Har & Hb)]; rewrite E3; cbn [bind].
  - left. split; [reflexivity|]. intros a Ha. apply Hall. lia.
  - right. destruct (vadd_col x _ n g _ Hx (vmul_scalar_col d n _ (/ 2 ^ a) Hd)) as (x' & E4 & Hx'). rewrite E4. cbn [bind].
    exists a, x'. split; [revert Hx'; apply col_ext; intros i Hi; cbn [add mul R_ops]; ring|].
    split; [lia|]. split; [exact Har|]. split; [intros b Hbb; apply Hb; lia|reflexivity].
Qed.

Lemma newton_min_spec fuel sigma rho : forall iters x0 g0, is_col x0 n g0 -> exists r, newton_min iters fuel sigma rho func jac hess x0 = Ret r /\
  match r with
  | None => True
  | Some x => exists X D a, X 0%nat = g0 /\ is_col x n (X iters) /\
      forall k, (k < iters)%nat -> direction rho (X k) (D k) /\ (a k <= fuel)%nat /\
        X (S k) = (fun i => X k i + / 2 ^ a k * D k i) /\ armijo_dir sigma (X k) (D k) (a k) /\
        forall b, (b < a k)%nat -> ~ armijo_dir sigma (X k) (D k) b
  end.
Proof.
  induction iters as [|iters IH]; intros x0 g0 Hx.
  - exists (Some x0). split; [reflexivity|]. exists (fun _ => g0), (fun _ => g0), (fun _ => 0%nat). split; [reflexivity|]. split; [exact Hx|intros; lia].
  - destruct (newton_min_step iters fuel sigma rho x0 g0 Hx) as (D & HD & [(E & _)|(a & x' & Hx' & Ha & Har & Hb & E)]); rewrite E.
    + exists None. split; [reflexivity|exact I].
    + destruct (IH x' _ Hx') as (r & Er & HI). exists r. split; [exact Er|]. destruct r as [x|]; [|exact I]. destruct HI as (X & DD & aa & H0 & Hc & Hk).
      exists (fun k => match k with O => g0 | S k => X k end), (fun k => match k with O => D | S k => DD k end), (fun k => match k with O => a | S k => aa k end).
      split; [reflexivity|]. split; [exact Hc|]. intros [|k] Hlt.
      * split; [exact HD|]. split; [exact Ha|]. split; [exact H0|]. split; [exact Har|exact Hb].
      * apply Hk. lia.
Qed.

Lemma direction_descent rho g D : 0 <= rho -> direction rho g D -> dot n (grd g) D <= 0.
Proof.
  intros Hr (W & _ & [(H & ->)|(_ & ->)]).
  - pose proof (sumsq_nonneg n (grd g)). assert (0 <= rho * sumsq n (grd g)) by (apply Rmult_le_pos; assumption). lra.
  - unfold dot. rewrite (sumR_ext _ _ (fun i => (-1) * (grd g i * grd g i))) by (intros i Hi; ring).
    rewrite sumR_mul_l. pose proof (sumsq_nonneg n (grd g)). unfold sumsq in *. lra.
Qed.

(** Solved Newton systems. *)
Hypothesis HSol : forall x g A, is_col x n g -> hess x = Ret A -> solver_ok A n (Hs g).
Lemma newton_sol_eq g W : newton_sol g W -> forall i, (i < n)%nat -> mv n (Hs g) W i = - grd g i.
Proof.
  intros (x & A & v & w & Hx & EA & Hv & E & Hw). destruct (HSol x g A Hx EA v _ Hv) as (w' & W' & E' & Hw' & Heq & _).
  rewrite E in E'. injection E' as <-. intros i Hi. rewrite <- (Heq i Hi). unfold mv. apply sumR_ext. intros k Hk.
  pose proof (col_get w n _ k Hw Hk) as G1. rewrite (col_get w n _ k Hw' Hk) in G1. injection G1 as ->. reflexivity.
Qed.
Lemma newton_sol_uniq g W y : newton_sol g W -> (forall i, (i < n)%nat -> mv n (Hs g) y i = - grd g i) -> forall i, (i < n)%nat -> W i = y i.
Proof.
  intros (x & A & v & w & Hx & EA & Hv & E & Hw) Hy i Hi. destruct (HSol x g A Hx EA v _ Hv) as (w' & W' & E' & Hw' & _ & Hu).
  rewrite E in E'. injection E' as <-. rewrite (Hu y Hy i Hi).
  pose proof (col_get w n _ i Hw Hi) as G1. rewrite (col_get w n _ i Hw' Hi) in G1. injection G1 as ->. reflexivity.
Qed.

Lemma dot_ext x y x' y' : (forall i, (i < n)%nat -> x i = x' i) -> (forall i, (i < n)%nat -> y i = y' i) -> dot n x y = dot n x' y'.
Proof. intros H1 H2. unfold dot. apply sumR_ext. intros i Hi. rewrite H1, H2 by assumption. reflexivity. Qed.

(** *** Quadratic objectives *)
Section Quadratic.
Variables (A : nat -> nat -> R) (b s : nat -> R) (c : R) (sigma rho : R).
Hypothesis Hphi : forall g, phi g = 1 / 2 * dot n g (mv n A g) - dot n b g + c.
Hypothesis Hgrd : forall g i, (i < n)%nat -> grd g i = mv n A g i - b i.
Hypothesis Hhess : forall g i j, Hs g i j = A i j.
Hypothesis Hsym : symmetric n A.
Hypothesis Hsig : sigma <= 1 / 2.
Hypothesis Hrho : forall y, rho * sumsq n (mv n A y) <= dot n y (mv n A y).
Hypothesis Hpos : forall y, 0 <= dot n y (mv n A y).
Hypothesis Hsolution : forall i, (i < n)%nat -> mv n A s i = b i.

Lemma mv_lin (x y : nat -> R) al i : mv n A (fun k => x k + al * y k) i = mv n A x i + al * mv n A y i.
Proof. unfold mv. rewrite <- sumR_mul_l, <- sumR_add. apply sumR_ext. intros; ring. Qed.
Lemma dot_comm x y : dot n x y = dot n y x.
Proof. unfold dot. apply sumR_ext. intros; ring. Qed.
Lemma dot_lin_r z (x y : nat -> R) al : dot n z (fun k => x k + al * y k) = dot n z x + al * dot n z y.
Proof. unfold dot. rewrite <- sumR_mul_l, <- sumR_add. apply sumR_ext. intros; ring. Qed.
Lemma dot_lin_l z (x y : nat -> R) al : dot n (fun k => x k + al * y k) z = dot n x z + al * dot n y z.
Proof. unfold dot. rewrite <- sumR_mul_l, <- sumR_add. apply sumR_ext. intros; ring. Qed.
Lemma quad_sym x y : dot n x (mv n A y) = dot n y (mv n A x).
Proof.
  unfold dot, mv. rewrite (sumR_ext n _ (fun i => sumn n (fun k => x i * A i k * y k))).
  2:{ intros i Hi. rewrite <- sumR_mul_l. apply sumR_ext. intros; ring. }
  rewrite sumR_swap. apply sumR_ext. intros i Hi. rewrite <- sumR_mul_l. apply sumR_ext. intros k Hk.
  rewrite (Hsym k i Hk Hi). unfold trf. ring.
Qed.

Lemma quad_dir g D : direction rho g D -> forall i, (i < n)%nat -> D i = s i - g i.
Proof.
  intros (W & HW & Hd). 
  assert (HWs : forall i, (i < n)%nat -> W i = s i - g i).
  { apply (newton_sol_uniq g W (fun i => s i - g i) HW). intros i Hi. rewrite Hgrd by assumption.
    rewrite <- Hsolution by assumption.
    transitivity (mv n A (fun k => s k + (-1) * g k) i).
    - unfold mv. apply sumR_ext. intros. rewrite Hhess. ring.
    - rewrite mv_lin. ring. }
  destruct Hd as [(_ & ->)|(Hlt & _)]; [exact HWs|exfalso].
  pose proof (newton_sol_eq g W HW) as Hw. specialize (Hrho W).
  assert (E1 : dot n (grd g) W = - dot n W (mv n A W)).
  { rewrite dot_comm. unfold dot. rewrite (sumR_ext n (fun i => W i * grd g i) (fun i => (-1) * (W i * mv n A W i))).
    - rewrite sumR_mul_l. ring.
    - intros i Hi. replace (mv n A W i) with (mv n (Hs g) W i) by (unfold mv; apply sumR_ext; intros; rewrite Hhess; reflexivity).
      rewrite Hw by assumption. ring. }
  assert (E2 : sumsq n (mv n A W) = sumsq n (grd g)).
  { unfold sumsq. apply sumR_ext. intros i Hi.
    replace (mv n A W i) with (mv n (Hs g) W i) by (unfold mv; apply sumR_ext; intros; rewrite Hhess; reflexivity).
    rewrite Hw by assumption. ring. }
  rewrite E1 in Hlt. rewrite E2 in Hrho. lra.
Qed.

Lemma quad_armijo g D : direction rho g D -> armijo_dir sigma g D 0.
Proof.
  intros HD. pose proof (quad_dir g D HD) as Hd. unfold armijo_dir. rewrite !Hphi. simpl. rewrite Rinv_1.
  assert (E1 : dot n (grd g) D = - dot n D (mv n A D)).
  { rewrite dot_comm. replace (- dot n D (mv n A D)) with (-1 * dot n D (mv n A D)) by ring. unfold dot. rewrite <- sumR_mul_l. apply sumR_ext. intros i Hi.
    rewrite Hgrd by assumption. rewrite <- Hsolution by assumption.
    replace (mv n A D i) with (mv n A (fun k => s k + (-1) * g k) i) by (unfold mv; apply sumR_ext; intros k Hk; rewrite Hd by assumption; ring).
    rewrite mv_lin. ring. }
  assert (E2 : dot n (grd g) D = dot n D (mv n A g) - dot n b D).
  { rewrite dot_comm, (dot_comm b). unfold dot. replace (sumn n (fun i => D i * mv n A g i) - sumn n (fun i => D i * b i)) with (sumn n (fun i => D i * mv n A g i) + (-1) * sumn n (fun i => D i * b i)) by ring.
    rewrite <- sumR_mul_l, <- sumR_add. apply sumR_ext. intros i Hi. rewrite Hgrd by assumption. ring. }
  rewrite dot_lin_r, dot_lin_l.
  rewrite (dot_ext g (mv n A (fun i => g i + 1 * D i)) g (fun i => mv n A g i + 1 * mv n A D i)) by (intros; try apply mv_lin; reflexivity).
  rewrite (dot_ext D (mv n A (fun i => g i + 1 * D i)) D (fun i => mv n A g i + 1 * mv n A D i)) by (intros; try apply mv_lin; reflexivity).
  rewrite !dot_lin_r. rewrite (quad_sym g D).
  pose proof (Hpos D) as Hp0. assert (sigma * dot n D (mv n A D) <= 1 / 2 * dot n D (mv n A D)) by (apply Rmult_le_compat_r; assumption).
  rewrite E1 in E2 |- *. set (u := dot n D (mv n A D)) in *. set (w := dot n D (mv n A g)) in *. lra.
Qed.

Lemma newton_quad_exact fuel : forall iters x g, is_col x n g ->
  exists w, newton_min (S iters) fuel sigma rho func jac hess x = Ret (Some w) /\ is_col w n s.
Proof.
  induction iters as [|iters IH]; intros x g Hx.
  all: match goal with |- exists w, newton_min (S ?k) _ _ _ _ _ _ _ = _ /\ _ =>
    destruct (newton_min_step k fuel sigma rho x g Hx) as (D & HD & [(E & Hno)|(a & x' & Hx' & Ha & Har & Hb & E)]) end;
    [exfalso; apply (Hno 0%nat); [lia|exact (quad_armijo g D HD)]|].
  all: assert (Ha0 : a = 0%nat) by (destruct a; [reflexivity|exfalso; apply (Hb 0%nat); [lia|exact (quad_armijo g D HD)]]); subst a.
  all: assert (Hs' : is_col x' n s) by (revert Hx'; apply col_ext; intros i Hi; rewrite (quad_dir g D HD i Hi); simpl; field).
  all: rewrite E.
  - exists x'. split; [reflexivity|exact Hs'].
  - exact (IH x' s Hs').
Qed.
End Quadratic.

(** *** Termination *)
Definition true_derivative g D : Prop :=
  derivable_pt_lim (fun t => phi (fun i => g i + t * D i)) 0 (dot n (grd g) D).

Lemma armijo_dir_exists sigma rho g D : sigma < 1 -> 0 < rho -> true_derivative g D -> direction rho g D -> exists a, armijo_dir sigma g D a.
Proof.
  intros Hsg Hr Hd HD. destruct (Req_dec (sumsq n (grd g)) 0) as [H0|H0].
  - exists 0%nat. unfold armijo_dir. assert (Hg0 := proj1 (sumsq_zero n (grd g)) H0).
    assert (HDz : forall i, (i < n)%nat -> D i = 0).
    { destruct HD as (W & HW & [(_ & ->)|(_ & ->)]); [|intros i Hi; rewrite Hg0 by assumption; ring].
      apply (newton_sol_uniq g W (fun _ => 0) HW). intros i Hi. rewrite Hg0 by assumption. unfold mv.
      rewrite (sumR_ext _ _ (fun _ => 0)) by (intros; ring). rewrite sumR_zero. ring. }
    replace (phi (fun i => g i + / 2 ^ 0 * D i)) with (phi g) by (apply (computes_ext func n m F); [exact HF|intros k Hk; rewrite HDz by assumption; ring|exact Hm]).
    replace (dot n (grd g) D) with 0; [lra|]. unfold dot. rewrite (sumR_ext _ _ (fun _ => 0)) by (intros i Hi; rewrite HDz by assumption; ring). rewrite sumR_zero. reflexivity.
  - pose proof (sumsq_nonneg n (grd g)) as Hnn.
    assert (Hq : 0 < - dot n (grd g) D).
    { destruct HD as (W & HW & [(Hle & ->)|(_ & ->)]).
      - assert (0 < rho * sumsq n (grd g)) by (apply Rmult_lt_0_compat; lra). lra.
      - unfold dot. rewrite (sumR_ext _ _ (fun i => (-1) * (grd g i * grd g i))) by (intros i Hi; ring). rewrite sumR_mul_l. unfold sumsq in *. lra. }
    set (q := - dot n (grd g) D) in *.
    destruct (Hd ((1 - sigma) * q)) as (dl & Hdl); [apply Rmult_lt_0_compat; lra|].
    destruct (pow_lt_1_zero (/ 2)) with (y := pos dl) as (N & HN); [rewrite Rabs_right; lra|apply cond_pos|].
    exists N. unfold armijo_dir. pose proof (inv2_range N) as [Hpos _].
    specialize (HN N (le_n N)).
    assert (Hl : Rabs (/ 2 ^ N) < dl) by (rewrite <- pow_inv; exact HN).
    specialize (Hdl (/ 2 ^ N)). rewrite Rplus_0_l in Hdl. specialize (Hdl ltac:(lra) Hl). cbv beta in Hdl.
    replace (phi (fun i => g i + 0 * D i)) with (phi g) in Hdl by (apply (computes_ext func n m F); [exact HF|intros; ring|exact Hm]).
    set (A := phi (fun i => g i + / 2 ^ N * D i)) in *. set (t := / 2 ^ N) in *.
    replace (dot n (grd g) D) with (- q) in * by (unfold q; ring).
    apply Rabs_def2 in Hdl. destruct Hdl as [Hdl _].
    assert ((A - phi g) / t < - sigma * q) by lra.
    apply (Rmult_lt_compat_r t) in H; [|exact Hpos]. unfold Rdiv in H. rewrite Rmult_assoc, Rinv_l, Rmult_1_r in H by lra. lra.
Qed.

Lemma newton_min_mono sigma rho : forall iters f1 f2 x0 x, (f1 <= f2)%nat ->
  newton_min iters f1 sigma rho func jac hess x0 = Ret (Some x) -> newton_min iters f2 sigma rho func jac hess x0 = Ret (Some x).
Proof.
  assert (Hsr : forall f1 f2 x d fx tm al fr r, (f1 <= f2)%nat -> newton_search f1 sigma func x d fx tm al fr = Ret (Some r) -> newton_search f2 sigma func x d fx tm al fr = Ret (Some r)).
  { induction f1 as [|f1 IH]; intros f2 x d fx tm al fr r Hf E; destruct f2 as [|f2]; try lia; cbn [newton_search] in E |- *;
      destruct (ltb _ fr); try exact E; try discriminate E.
    destruct (vadd x _) as [r1|]; [cbn [bind] in E|-*|discriminate E].
    destruct (eval0 func r1) as [r2|]; [cbn [bind] in E|-*|discriminate E]. apply (IH f2); [lia|exact E]. }
  induction iters as [|iters IH]; intros f1 f2 x0 x Hf E; [exact E|]. cbn [newton_min] in E |- *.
  destruct (grad_at jac x0) as [g|]; [cbn [bind] in E|-*|discriminate E].
  destruct (newton_dir rho hess x0 g) as [d|]; [cbn [bind] in E|-*|discriminate E].
  destruct (vadd x0 (vmul_scalar d one)) as [r|]; [cbn [bind] in E|-*|discriminate E].
  destruct (eval0 func r) as [fr|]; [cbn [bind] in E|-*|discriminate E].
  destruct (eval0 func x0) as [fx|]; [cbn [bind] in E|-*|discriminate E].
  destruct (vdotp g d) as [tm|]; [cbn [bind] in E|-*|discriminate E].
  destruct (newton_search f1 sigma func x0 d fx tm one fr) as [[al|]|] eqn:Es; try discriminate E.
  rewrite (Hsr _ _ _ _ _ _ _ _ _ Hf Es). cbn [bind] in E |- *.
  destruct (vadd x0 (vmul_scalar d al)) as [x1|]; [|discriminate E]. cbn [bind] in E |- *. eapply IH; eauto.
Qed.

Lemma newton_sol_det g W W' : newton_sol g W -> newton_sol g W' -> forall i, (i < n)%nat -> W i = W' i.
Proof. intros H H'. apply (newton_sol_uniq g W W' H). apply newton_sol_eq. exact H'. Qed.

Lemma direction_det rho g D D' : direction rho g D -> direction rho g D' -> forall i, (i < n)%nat -> D i = D' i.
Proof.
  intros (W & HW & Hd) (W' & HW' & Hd'). pose proof (newton_sol_det g W W' HW HW') as E.
  assert (Ed : dot n (grd g) W = dot n (grd g) W') by (apply dot_ext; [reflexivity|exact E]).
  destruct Hd as [(H & ->)|(H & ->)]; destruct Hd' as [(H' & ->)|(H' & ->)]; auto; rewrite Ed in H; lra.
Qed.

Lemma armijo_dir_ext sigma g D D' a : (forall i, (i < n)%nat -> D i = D' i) -> armijo_dir sigma g D a -> armijo_dir sigma g D' a.
Proof.
  intros E. unfold armijo_dir. rewrite (dot_ext (grd g) D (grd g) D') by auto.
  replace (phi (fun i => g i + / 2 ^ a * D i)) with (phi (fun i => g i + / 2 ^ a * D' i)); [auto|].
  apply (computes_ext func n m F); [exact HF|intros k Hk; rewrite E by assumption; reflexivity|exact Hm].
Qed.

Lemma newton_min_terminates sigma rho : sigma < 1 -> 0 < rho -> (forall g D, true_derivative g D) ->
  forall iters x0 g0, is_col x0 n g0 -> exists fuel0 x, forall fuel, (fuel0 <= fuel)%nat -> newton_min iters fuel sigma rho func jac hess x0 = Ret (Some x).
Proof.
  intros Hsg Hr Hg.
  assert (H : forall iters x0 g0, is_col x0 n g0 -> exists fuel0 x, newton_min iters fuel0 sigma rho func jac hess x0 = Ret (Some x)).
  { induction iters as [|iters IH]; intros x0 g0 Hx; [exists 0%nat, x0; reflexivity|].
    destruct (newton_min_step iters 0 sigma rho x0 g0 Hx) as (D & HD & _).
    destruct (armijo_dir_exists sigma rho g0 D Hsg Hr (Hg g0 D) HD) as (N & HN).
    destruct (newton_min_step iters N sigma rho x0 g0 Hx) as (D1 & HD1 & [(_ & Hno)|(a & x' & Hx' & Ha & Har & Hb & _)]).
    { exfalso; apply (Hno N); [lia|]. apply (armijo_dir_ext sigma g0 D D1); [exact (direction_det rho g0 D D1 HD HD1)|exact HN]. }
    destruct (IH x' _ Hx') as (f1 & x & E1).
    exists (Nat.max f1 N), x.
    destruct (newton_min_step iters (Nat.max f1 N) sigma rho x0 g0 Hx) as (D2 & HD2 & [(_ & Hno)|(a2 & x2 & Hx2 & Ha2 & Har2 & Hb2 & E2)]).
    { exfalso; apply (Hno N); [lia|]. apply (armijo_dir_ext sigma g0 D D2); [exact (direction_det rho g0 D D2 HD HD2)|exact HN]. }
    pose proof (direction_det rho g0 D1 D2 HD1 HD2) as E12.
    assert (a2 = a).
    { destruct (lt_eq_lt_dec a2 a) as [[L|L]|L]; [exfalso|exact L|exfalso].
      - apply (Hb a2 L). apply (armijo_dir_ext sigma g0 D2 D1); [intros; symmetry; auto|exact Har2].
      - apply (Hb2 a L). apply (armijo_dir_ext sigma g0 D1 D2); [auto|exact Har]. }
    subst a2. rewrite E2. replace x2 with x'.
    - apply (newton_min_mono sigma rho iters f1); [lia|exact E1].
    - apply (is_mat_unique _ _ _ _ _ Hx'). revert Hx2. apply col_ext. intros i Hi. rewrite E12 by assumption. reflexivity. }
  intros iters x0 g0 Hx. destruct (H iters x0 g0 Hx) as (f0 & x & E). exists f0, x. intros fuel Hf. exact (newton_min_mono sigma rho iters f0 fuel x0 x Hf E).
Qed.
End Newt.

(** The line search does not end at a stationary point whose Hessian is singular. *)
Definition p4_func (x : vector R) : outcome (vector R) := let! a := vvget x 0 in Ret (mkMatrix 1 1 [a ^ 4]).
Definition p4_jac (x : vector R) : outcome (matrix R) := let! a := vvget x 0 in Ret (mkMatrix 1 1 [4 * a ^ 3]).
Definition p4_hess (x : vector R) : outcome (matrix R) := let! a := vvget x 0 in Ret (mkMatrix 1 1 [12 * a ^ 2]).
Lemma p4_computes : computes p4_func 1 1 (fun g _ => g 0%nat ^ 4).
Proof. intros x g H. unfold p4_func. rewrite (col_get x 1 g 0 H) by lia. cbn [bind]. eexists. split; [reflexivity|]. apply tan_col. Qed.
Lemma p4_jac_computes : computes_mat p4_jac 1 1 1 (fun g _ _ => 4 * g 0%nat ^ 3).
Proof. intros x g H. unfold p4_jac. rewrite (col_get x 1 g 0 H) by lia. cbn [bind]. eexists. split; [reflexivity|]. apply tan_col. Qed.
Lemma p4_hess_computes : computes_mat p4_hess 1 1 1 (fun g _ _ => 12 * g 0%nat ^ 2).
Proof. intros x g H. unfold p4_hess. rewrite (col_get x 1 g 0 H) by lia. cbn [bind]. eexists. split; [reflexivity|]. apply tan_col. Qed.

Lemma newton_p4_stuck iters fuel sigma rho x : is_col x 1 (fun _ => 0) ->
  newton_min (S iters) fuel sigma rho p4_func p4_jac p4_hess x = Ret None.
Proof.
  intros Hx.
  destruct (newton_min_step p4_func p4_jac p4_hess 1 1 1 _ _ _ p4_computes p4_jac_computes p4_hess_computes ltac:(lia) ltac:(lia) ltac:(lia) iters fuel sigma rho x _ Hx)
    as (D & (W & (x1 & A & v & w & Hx1 & EA & Hv & Es & Hw) & HD) & [(E & _)|(a & x' & _ & _ & Har & _)]); [exact E|exfalso].
  destruct (p4_hess_computes x1 _ Hx1) as (A' & EA' & HA). rewrite EA in EA'. injection EA' as <-.
  destruct (solve_1x1 A v _ _ HA Hv) as (w' & Es' & Hw'). rewrite Es in Es'. injection Es' as <-.
  assert (HW : W 0%nat = 1).
  { pose proof (col_get w 1 _ 0 Hw ltac:(lia)) as G1. rewrite (col_get w 1 _ 0 Hw' ltac:(lia)) in G1. injection G1 as <-.
    rewrite (proj2 (R_eqb_true _ _)); [reflexivity|ring]. }
  unfold armijo_dir, dot in Har. unfold dot, sumsq in HD. cbn [sumn zero add R_ops] in Har, HD. cbv beta zeta in Har, HD.
  destruct HD as [(_ & ->)|(Hlt & _)].
  - rewrite HW in Har. pose proof (inv2_range a) as [Hp _]. pose proof (pow_lt (/ 2 ^ a) 4 Hp).
    replace ((0 + / 2 ^ a * 1) ^ 4) with ((/ 2 ^ a) ^ 4) in Har by ring. set (t := (/ 2 ^ a) ^ 4) in *. lra.
  - rewrite HW in Hlt. lra.
Qed.
