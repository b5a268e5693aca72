(** Gauss-Newton: local convergence, quadratic for square systems and linear for least squares in one unknown. *)
From Coq Require Import Arith List Bool Lia Reals Lra.
From Verif Require Import Outcome Scalar RealOps Matrix_model Vector_model Decomp_model Optim_model
  Matrix_spec Decomp_spec Optim_spec Matrix_proofs Vector_proofs Sums Norm_proofs Ode_proofs OdeOrder_proofs OdeConseq_proofs DecompProps_proofs Newton_proofs Descent_proofs LM_proofs OptimEx_proofs OptimEx2_proofs Ortho_proofs.
Import ListNotations.
Local Open Scope R_scope.

Section GN.
Variables (func : vector R -> outcome (vector R)) (jac : vector R -> outcome (matrix R)) (n p : nat).
Variables (F : (nat -> R) -> nat -> R) (J : (nat -> R) -> nat -> nat -> R).
Hypothesis HF : computes func n p F.
Hypothesis HJ : computes_mat jac n p n J.

Lemma gn_inv (inv : nat -> (nat -> R) -> Prop) :
  (forall k x g A, is_col x n g -> inv k g -> jac x = Ret A -> is_mat A p n (J g) ->
     exists P pf, mpinv A = Ret P /\ is_mat P n p pf /\ inv (S k) (fun i => g i - mv p pf (F g) i)) ->
  forall iters k x g, is_col x n g -> inv k g -> exists w g', gn_min iters func jac x = Ret w /\ is_col w n g' /\ inv (k + iters)%nat g'.
Proof.
  intros HP. induction iters as [|iters IH]; intros k x g Hx Hk.
  - exists x, g. rewrite Nat.add_0_r. split; [reflexivity|]. auto.
  - cbn [gn_min]. destruct (HJ x g Hx) as (A & E1 & HA). rewrite E1. cbn [bind].
    destruct (HF x g Hx) as (f & E2 & Hf). rewrite E2. cbn [bind].
    destruct (HP k x g A Hx Hk E1 HA) as (P & pf & E3 & HPm & Hi). rewrite E3. cbn [bind].
    destruct (mmul_vec_spec P n p _ f _ HPm Hf) as (dl & E4 & Hdl). rewrite E4. cbn [bind].
    destruct (vsub_col x dl n _ _ Hx Hdl) as (x1 & E5 & Hx1). rewrite E5. cbn [bind].
    destruct (IH (S k) x1 _ Hx1 Hi) as (w & g' & Ew & Hw & H'). exists w, g'. rewrite Nat.add_succ_r. auto.
Qed.
End GN.

Lemma gn_local_square func jac n F J r rho m K : computes func n n F -> computes_mat jac n n n J -> (0 < n)%nat ->
  0 < m -> 0 < K -> K * rho <= m ->
  (forall x g A, is_col x n g -> enorm n (fun i => g i - r i) <= rho -> jac x = Ret A ->
     exists Q Rm fr, dec_qr A = Ret (Q, Rm) /\ is_mat Rm n n fr /\ forall k, (k < n)%nat -> fr k k <> 0) ->
  (forall g y, enorm n (fun i => g i - r i) <= rho -> m * enorm n y <= enorm n (mv n (J g) y)) ->
  (forall g, enorm n (fun i => g i - r i) <= rho ->
     enorm n (fun i => F g i - mv n (J g) (fun k => g k - r k) i) <= K * Rsqr (enorm n (fun i => g i - r i))) ->
  forall iters x0 g0, is_col x0 n g0 -> enorm n (fun i => g0 i - r i) <= rho ->
  exists w g, gn_min iters func jac x0 = Ret w /\ is_col w n g /\
    K / m * enorm n (fun i => g i - r i) <= (K / m * enorm n (fun i => g0 i - r i)) ^ (2 ^ iters).
Proof.
  intros HF HJ Hn Hm HK HKr HQ Hinv Htay iters x0 g0 Hx He. set (e0 := enorm n (fun i => g0 i - r i)) in *.
  assert (K0 : 0 < K / m) by (now apply Rdiv_lt_0_compat).
  destruct (gn_inv func jac n n F J HF HJ (fun k g => enorm n (fun i => g i - r i) <= rho /\ K / m * enorm n (fun i => g i - r i) <= (K / m * e0) ^ (2 ^ k)))
    with (iters := iters) (k := 0%nat) (x := x0) (g := g0) as (w & g & E & Hw & _ & H).
  - intros k x g A Hg (Hr & Hk) EA HA. destruct (HQ x g A Hg Hr EA) as (Q & Rm & fr & EQ & HR & Hd).
    destruct (mpinv_square A n _ Q Rm fr HA Hn EQ HR Hd) as (P & pf & E1 & HP & _ & H2). exists P, pf. split; [exact E1|]. split; [exact HP|].
    set (B := mv n pf (F g)). assert (HB : forall i, (i < n)%nat -> mv n (J g) B i = F g i).
    { intros i Hi. transitivity (mv n (mulf n (J g) pf) (F g) i).
      - unfold mv, B. rewrite (sumR_ext n _ (fun q => sumn n (fun l => J g i q * pf q l * F g l))).
        + rewrite sumR_swap. apply sumR_ext. intros l Hl. unfold mulf. rewrite <- sumR_mul_r. reflexivity.
        + intros q Hq. unfold mv. rewrite <- sumR_mul_l. apply sumR_ext. intros; ring.
      - unfold mv. rewrite (sumR_ext n _ (fun q => delta i q * F g q)) by (intros q Hq; rewrite H2 by assumption; reflexivity).
        exact (sumn_delta_l R_RingLaws n i (F g) Hi). }
    pose proof (newton_quadratic n F J r m K g B Hm (fun y => Hinv g y Hr) (Htay g Hr) HB) as NQ. pose proof (enorm_nonneg n (fun i => g i - r i)) as N0.
    set (e := enorm n (fun i => g i - r i)) in *. cbv beta. change (fun i => g i - mv n pf (F g) i - r i) with (fun i => g i - B i - r i).
    set (e' := enorm n (fun i => g i - B i - r i)) in *. unfold Rsqr in NQ. split.
    + eapply Rle_trans; [exact NQ|]. eapply Rle_trans; [|exact Hr]. rewrite <- Rmult_assoc. rewrite <- (Rmult_1_l e) at 3. apply Rmult_le_compat_r; [exact N0|].
      apply (Rmult_le_reg_l m); [exact Hm|]. replace (m * (K / m * e)) with (K * e) by (field; lra). assert (K * e <= K * rho) by (apply Rmult_le_compat_l; lra). lra.
    + apply Rle_trans with ((K / m * e) ^ 2).
      * cbn [pow]. replace (K / m * e * (K / m * e * 1)) with (K / m * (K / m * (e * e))) by ring. apply Rmult_le_compat_l; [lra|exact NQ].
      * replace (2 ^ S k)%nat with (2 ^ k * 2)%nat by (cbn; lia). rewrite pow_mult. apply pow_incr. split; [apply Rmult_le_pos; lra|exact Hk].
  - exact Hx.
  - split; [exact He|]. fold e0. cbn. lra.
  - exists w, g. auto.
Qed.

(** One unknown, p residuals. *)
Lemma gn_local_one func jac p F J xs rho m K S : computes func 1 p F -> computes_mat jac 1 p 1 J -> (0 < p)%nat ->
  0 < m -> 0 <= K -> 0 <= S -> K * rho / m + S / (m * m) <= 1 ->
  (forall g, Rabs (g 0%nat - xs) <= rho -> J g 0%nat 0%nat <> 0 /\ m <= enorm p (fun l => J g l 0%nat) /\
     enorm p (fun l => F g l - F (fun _ => xs) l - J g l 0%nat * (g 0%nat - xs)) <= K * (g 0%nat - xs) ^ 2 /\
     Rabs (dot p (fun l => J g l 0%nat) (F (fun _ => xs))) <= S * Rabs (g 0%nat - xs)) ->
  forall iters x0 g0, is_col x0 1 g0 -> Rabs (g0 0%nat - xs) <= rho ->
  exists w g, gn_min iters func jac x0 = Ret w /\ is_col w 1 g /\
    Rabs (g 0%nat - xs) <= (K * rho / m + S / (m * m)) ^ iters * Rabs (g0 0%nat - xs).
Proof.
  intros HF HJ Hp Hm HK HS Hq Hnear iters x0 g0 Hx He. set (e0 := Rabs (g0 0%nat - xs)) in *. set (q := K * rho / m + S / (m * m)) in *.
  assert (R0 : 0 <= rho) by (eapply Rle_trans; [apply Rabs_pos|exact He]).
  assert (Q0 : 0 <= q). { unfold q. apply Rplus_le_le_0_compat; (apply Rmult_le_pos; [|left; apply Rinv_0_lt_compat]); try nra. }
  destruct (gn_inv func jac 1 p F J HF HJ (fun k g => Rabs (g 0%nat - xs) <= rho /\ Rabs (g 0%nat - xs) <= q ^ k * e0))
    with (iters := iters) (k := 0%nat) (x := x0) (g := g0) as (w & g & E & Hw & _ & H).
  - intros k x g A Hg (Hr & Hk) EA HA. destruct (Hnear g Hr) as (Hnz & Hjm & Htay & Hcur).
    destruct (mpinv_col A p _ HA Hp Hnz) as (P & E1 & HP). eexists P, _. split; [exact E1|]. split; [exact HP|]. cbv beta.
    set (jl := fun l => J g l 0%nat) in *. set (e := g 0%nat - xs) in *. set (N := enorm p jl) in *.
    pose proof (enorm_sq p jl) as NS. fold N in NS. set (Rm := fun l => F g l - F (fun _ => xs) l - jl l * e) in *.
    assert (ES : g 0%nat - mv p (fun _ i => jl i / sumsq p jl) (F g) 0 - xs = - (dot p jl Rm + dot p jl (F (fun _ => xs))) / sumsq p jl).
    { rewrite <- NS. assert (N <> 0) by lra.
      assert (D1 : mv p (fun _ i => jl i / (N * N)) (F g) 0 = / (N * N) * dot p jl (F g)).
      { unfold mv, dot. rewrite <- sumR_mul_l. apply sumR_ext. intros; unfold Rdiv; ring. }
      rewrite D1. assert (D2 : dot p jl (F g) = dot p jl Rm + dot p jl (F (fun _ => xs)) + e * (N * N)).
      { rewrite NS. unfold dot, sumsq. rewrite <- sumR_mul_l, <- !sumR_add. apply sumR_ext. intros l Hl. unfold Rm. ring. }
      rewrite D2. unfold e. field. assumption. }
    change (fun _ i : nat => J g i 0%nat / sumsq p jl) with (fun _ i : nat => jl i / sumsq p jl). rewrite ES, <- NS. assert (N0 : 0 < N) by lra.
    assert (B1 : Rabs (dot p jl Rm) <= N * (K * e ^ 2)).
    { eapply Rle_trans; [apply cauchy_schwarz|]. fold N. apply Rmult_le_compat_l; [lra|exact Htay]. }
    assert (SB : Rabs (- (dot p jl Rm + dot p jl (F (fun _ => xs))) / (N * N)) <= q * Rabs e).
    { unfold Rdiv. rewrite Rabs_mult, Rabs_Ropp, (Rabs_pos_eq (/ (N * N))) by (left; apply Rinv_0_lt_compat; nra).
      apply (Rmult_le_reg_r (N * N)); [nra|]. rewrite Rmult_assoc, Rinv_l, Rmult_1_r by nra.
      eapply Rle_trans; [apply Rabs_triang|]. eapply Rle_trans; [apply Rplus_le_compat; [exact B1|exact Hcur]|].
      set (a := Rabs e) in *. assert (A0 : 0 <= a) by apply Rabs_pos. replace (e ^ 2) with (a * a) by (unfold a; rewrite <- Rabs_mult; rewrite Rabs_pos_eq; [ring|nra]).
      unfold q. replace ((K * rho / m + S / (m * m)) * a * (N * N)) with (K * rho * a * (N * (N / m)) + S * a * ((N / m) * (N / m))) by (field; lra).
      assert (NM : 1 <= N / m). { apply (Rmult_le_reg_r m); [exact Hm|]. unfold Rdiv. rewrite Rmult_assoc, Rinv_l by lra. lra. }
      assert (T1 : N * (K * (a * a)) <= K * rho * a * (N * (N / m))).
      { replace (N * (K * (a * a))) with (K * a * a * (N * 1)) by ring. apply Rmult_le_compat; [| |apply Rmult_le_compat_r; [exact A0|apply Rmult_le_compat_l; [exact HK|exact Hr]]|apply Rmult_le_compat_l; lra].
        - apply Rmult_le_pos; [apply Rmult_le_pos|]; assumption.
        - lra. }
      assert (T2 : S * a * 1 <= S * a * (N / m * (N / m))).
      { apply Rmult_le_compat_l; [now apply Rmult_le_pos|]. rewrite <- (Rmult_1_l 1). apply Rmult_le_compat; lra. }
      lra. }
    pose proof (Rabs_pos e) as A0. split.
    + eapply Rle_trans; [exact SB|]. eapply Rle_trans; [|exact Hr]. rewrite <- (Rmult_1_l (Rabs e)) at 2. apply Rmult_le_compat_r; assumption.
    + eapply Rle_trans; [exact SB|]. cbn [pow]. rewrite Rmult_assoc. apply Rmult_le_compat_l; assumption.
  - exact Hx.
  - split; [exact He|]. cbn [pow]. rewrite Rmult_1_l. apply Rle_refl.
  - exists w, g. auto.
Qed.

(** residuals x - 2 and x^2 - 1/2, whose sum of squares is stationary at 1 with residuals -1 and 1/2 *)
Definition par_func (x : vector R) : outcome (vector R) := let! a := vvget x 0 in Ret (mkMatrix 2 1 [a - 2; a * a - 1 / 2]).
Definition par_jac (x : vector R) : outcome (matrix R) := let! a := vvget x 0 in Ret (mkMatrix 2 1 [1; 2 * a]).
Lemma par_computes : computes par_func 1 2 (fun g => v2 (g 0%nat - 2) (g 0%nat * g 0%nat - 1 / 2)).
Proof. intros x g H. unfold par_func. rewrite (col_get _ 1 _ 0 H) by lia. cbn [bind]. eexists. split; [reflexivity|]. apply is_v2. Qed.
Lemma par_jac_computes : computes_mat par_jac 1 2 1 (fun g i _ => v2 1 (2 * g 0%nat) i).
Proof. intros x g H. unfold par_jac. rewrite (col_get _ 1 _ 0 H) by lia. cbn [bind]. eexists. split; [reflexivity|]. exact (is_v2 1 (2 * g 0%nat)). Qed.
Lemma par_near (g : nat -> R) : Rabs (g 0%nat - 1) <= 1 / 4 -> 1 <> 0 /\ 3 / 2 <= enorm 2 (fun l => v2 1 (2 * g 0%nat) l) /\
  enorm 2 (fun l => v2 (g 0%nat - 2) (g 0%nat * g 0%nat - 1 / 2) l - v2 (1 - 2) (1 * 1 - 1 / 2) l - v2 1 (2 * g 0%nat) l * (g 0%nat - 1)) <= 1 * (g 0%nat - 1) ^ 2 /\
  Rabs (dot 2 (fun l => v2 1 (2 * g 0%nat) l) (v2 (1 - 2) (1 * 1 - 1 / 2))) <= 1 * Rabs (g 0%nat - 1).
Proof.
  intros H. apply Rabs_le_inv in H. split; [lra|]. unfold enorm. rewrite !sumsq_2, dot_2. cbv [v2 nth]. split; [|split].
  - rewrite <- (sqrt_Rsqr (3 / 2)) by lra. apply sqrt_le_1_alt. unfold Rsqr. nra.
  - match goal with |- sqrt ?e <= _ => replace e with (Rsqr ((g 0%nat - 1) ^ 2)) by (unfold Rsqr; field) end. rewrite sqrt_Rsqr; [lra|]. apply pow2_ge_0.
  - rewrite (Rmult_1_l (Rabs _)). right. f_equal. field.
Qed.

(** x^2 = 2 near its positive root *)
Lemma sq2_gn_near (g : nat -> R) : enorm 1 (fun i => g i - sqrt 2) <= 1 / 4 -> 1 <= g 0%nat.
Proof. pose proof sqrt2_lower. rewrite enorm_1. intros Hr. apply Rabs_le_inv in Hr. lra. Qed.
Lemma sq2_gn_qr x g A : is_col x 1 g -> enorm 1 (fun i => g i - sqrt 2) <= 1 / 4 -> sq2_jac x = Ret A ->
  exists Q Rm fr, dec_qr A = Ret (Q, Rm) /\ is_mat Rm 1 1 fr /\ forall k, (k < 1)%nat -> fr k k <> 0.
Proof.
  intros Hx Hr HA. apply sq2_gn_near in Hr. destruct (sq2_jac_computes x g Hx) as (A' & E & HA'). assert (A' = A) by congruence. subst A'.
  destruct (dec_qr_spec A 1 1 _ HA' ltac:(lia) ltac:(lia)) as (Q & Rm & fq & fr & EQ & HQ & HR & Ho & Hp & Hup & Hnz).
  exists Q, Rm, fr. split; [exact EQ|]. split; [exact HR|]. intros k Hk. replace k with 0%nat by lia. apply Hnz. lra.
Qed.
Lemma sq2_gn_inv (g y : nat -> R) : enorm 1 (fun i => g i - sqrt 2) <= 1 / 4 -> 2 * enorm 1 y <= enorm 1 (mv 1 (fun _ _ => 2 * g 0%nat) y).
Proof.
  intros Hr. apply sq2_gn_near in Hr. rewrite !enorm_1, mv_1, Rabs_mult. apply Rmult_le_compat_r; [apply Rabs_pos|]. rewrite Rabs_right; lra.
Qed.
Lemma sq2_gn_tay (g : nat -> R) : enorm 1 (fun i => g i - sqrt 2) <= 1 / 4 ->
  enorm 1 (fun i => g 0%nat * g 0%nat - 2 - mv 1 (fun _ _ => 2 * g 0%nat) (fun k => g k - sqrt 2) i) <= 1 * Rsqr (enorm 1 (fun i => g i - sqrt 2)).
Proof.
  intros _. pose proof (sqrt_sqrt 2 ltac:(lra)) as H3. rewrite !enorm_1, mv_1, <- Rsqr_abs.
  replace (g 0%nat * g 0%nat - 2 - 2 * g 0%nat * (g 0%nat - sqrt 2)) with (- Rsqr (g 0%nat - sqrt 2)) by (unfold Rsqr; lra).
  rewrite Rabs_Ropp, Rabs_right by (apply Rle_ge, Rle_0_sqr). lra.
Qed.
