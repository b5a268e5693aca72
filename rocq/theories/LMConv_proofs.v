(** Levenberg-Marquardt: the damping search ends, and the gradients of the sum of squares become small. *)
From Coq Require Import Arith List Bool Lia Reals Lra Psatz.
From Verif Require Import Outcome Scalar RealOps Matrix_model Vector_model LU_model Optim_model
  Matrix_spec LU_spec Decomp_spec Optim_spec Matrix_proofs Vector_proofs Sums Norm_proofs Descent_proofs Newton_proofs Ortho_proofs Ode_proofs OdeOrder_proofs OdeConseq_proofs LM_proofs Convex_proofs OptimEx2_proofs.
Import ListNotations.
Local Open Scope R_scope.

(** |J^T u|^2 <= |J|_F^2 |u|^2 *)
Lemma jt_bound p n (J : nat -> nat -> R) (u : nat -> R) :
  sumsq n (fun i => sumn p (fun l => J l i * u l)) <= sumn p (fun l => sumsq n (J l)) * sumsq p u.
Proof.
  replace (sumn p (fun l => sumsq n (J l))) with (sumn n (fun i => sumsq p (fun l => J l i))) by (unfold sumsq; exact (sumR_swap n p (fun i l => J l i * J l i))).
  unfold sumsq at 1. induction n as [|n IH]; [cbn [sumn]; change (@zero R R_ops) with 0; lra|]. cbn [sumn]. change (@add R R_ops) with Rplus.
  pose proof (cauchy_schwarz_sq p (fun l => J l n) u). rewrite Rmult_plus_distr_r. lra.
Qed.

Section Conv.
Variables (func : vector R -> outcome (vector R)) (jac : vector R -> outcome (matrix R)) (n p : nat).
Variables (F : (nat -> R) -> nat -> R) (J : (nat -> R) -> nat -> nat -> R).
Hypothesis HF : computes func n p F.
Hypothesis HJ : computes_mat jac n p n J.
Hypothesis Hn : (0 < n)%nat.
Hypothesis Hp : (0 < p)%nat.
Hypothesis Hshape : p = n \/ p = 1%nat \/ n = 1%nat.
Hypothesis HS : forall g mu A, 0 < mu -> is_mat A n n (damped p (J g) mu) -> solver_ok A n (damped p (J g) mu).
Let G (g : nat -> R) (i : nat) : R := sumn p (fun l => J g l i * F g l).
Variables (L beta_0 beta_1 : R).
Hypothesis HL : 0 <= L.
Hypothesis Hb : 0 < beta_0 < 1.
Hypothesis Hsm : forall g d, sumsq p (F (fun i => g i + d i)) <= sumsq p (F g) + 2 * dot n (G g) d + L * sumsq n d.
Let M2 := Rmax (1 / 4) (2 * L / (1 - beta_0)).

Lemma eqn_dot g mu D : (forall i, (i < n)%nat -> mv n (damped p (J g) mu) D i = - G g i) ->
  - dot n (G g) D = sumsq p (mv n (J g) D) + mu * mu * sumsq n D.
Proof.
  intros H. pose proof (lm_denominator p n (J g) (F g) D mu H) as E.
  assert (E3 : sumsq p (fun l => F g l + mv n (J g) D l) = sumsq p (F g) + 2 * sumn p (fun l => F g l * mv n (J g) D l) + sumsq p (mv n (J g) D)).
  { unfold sumsq. rewrite <- sumR_mul_l, <- !sumR_add. apply sumR_ext. intros; ring. }
  assert (E4 : sumn p (fun l => F g l * mv n (J g) D l) = dot n (G g) D).
  { unfold dot, G, mv. rewrite (sumR_ext n _ (fun i => sumn p (fun l => F g l * (J g l i * D i)))).
    - rewrite sumR_swap. apply sumR_ext. intros l Hl. now rewrite sumR_mul_l.
    - intros i Hi. rewrite <- sumR_mul_r. apply sumR_ext. intros; ring. }
  lra.
Qed.
Lemma grad_bound g mu D A : (forall i, (i < n)%nat -> mv n (damped p (J g) mu) D i = - G g i) -> sumn p (fun l => sumsq n (J g l)) <= A -> mu * mu <= M2 ->
  sumsq n (G g) <= Rmax (2 * A) M2 * (sumsq p (mv n (J g) D) + 2 * (mu * mu) * sumsq n D).
Proof.
  intros H HA Hmu.
  assert (E : forall i, (i < n)%nat -> - G g i = sumn p (fun l => J g l i * mv n (J g) D l) + mu * mu * D i).
  { intros i Hi. rewrite <- H by exact Hi. unfold mv at 1, jtj_damped.
    rewrite (sumR_ext n _ (fun k => sumn p (fun l => J g l i * J g l k) * D k + mu * mu * (delta i k * D k))) by (intros; ring).
    rewrite sumR_add, sumR_mul_l. replace (sumn n (fun k => delta i k * D k)) with (D i) by (symmetry; exact (sumn_delta_l R_RingLaws n i D Hi)). f_equal.
    rewrite (sumR_ext n _ (fun k => sumn p (fun l => J g l i * (J g l k * D k)))).
    - rewrite sumR_swap. apply sumR_ext. intros l Hl. now rewrite sumR_mul_l.
    - intros k Hk. rewrite <- sumR_mul_r. apply sumR_ext. intros; ring. }
  pose proof (jt_bound p n (J g) (mv n (J g) D)) as B. set (w := fun i => sumn p (fun l => J g l i * mv n (J g) D l)) in *.
  set (P := sumsq p (mv n (J g) D)) in *. set (Q := sumsq n D) in *. assert (P0 : 0 <= P) by apply sumsq_nonneg. assert (Q0 : 0 <= Q) by apply sumsq_nonneg.
  assert (S : sumsq n (G g) <= 2 * sumsq n w + 2 * (mu * mu) * (mu * mu) * Q).
  { assert (T : forall m, (m <= n)%nat -> sumsq m (G g) <= 2 * sumsq m w + 2 * (mu * mu) * (mu * mu) * sumsq m D); [|apply T; lia].
    unfold sumsq. induction m as [|m IH]; intros Hm; cbn [sumn]; [change (@zero R R_ops) with 0; lra|]. change (@add R R_ops) with Rplus. specialize (IH ltac:(lia)). specialize (E m ltac:(lia)). fold (w m) in E.
    replace (G g m * G g m) with ((- G g m) * (- G g m)) by ring. rewrite E. set (x := w m). set (y := mu * mu * D m).
    replace (2 * (mu * mu) * (mu * mu) * (sumn m (fun i => D i * D i) + D m * D m)) with (2 * (mu * mu) * (mu * mu) * sumn m (fun i => D i * D i) + 2 * (y * y)) by (unfold y; ring).
    pose proof (Rle_0_sqr (x - y)) as SQ. unfold Rsqr in SQ. lra. }
  set (C := Rmax (2 * A) M2). assert (C1 : 2 * A <= C) by apply Rmax_l. assert (C2 : M2 <= C) by apply Rmax_r.
  assert (sumn p (fun l => sumsq n (J g l)) * P <= A * P) by (apply Rmult_le_compat_r; assumption).
  assert (2 * A * P <= C * P) by (apply Rmult_le_compat_r; assumption).
  assert (0 <= mu * mu) by apply Rle_0_sqr. assert (0 <= 2 * (mu * mu) * Q) by (apply Rmult_le_pos; lra).
  assert (mu * mu * (2 * (mu * mu) * Q) <= C * (2 * (mu * mu) * Q)) by (apply Rmult_le_compat_r; lra). lra.
Qed.

(** A trial is rejected only for small damping. *)
Lemma reject g mu D : 0 < mu -> (forall i, (i < n)%nat -> mv n (damped p (J g) mu) D i = - G g i) -> 0 < sumsq n (G g) ->
  let num := sumsq p (F g) - sumsq p (F (fun i => g i + D i)) in let den := sumsq p (mv n (J g) D) + 2 * (mu * mu) * sumsq n D in
  0 < den /\ (num / den < beta_0 -> 2 * (1 - beta_0) * (mu * mu) < L).
Proof.
  intros Hmu H HG num den.
  assert (M0 : 0 < mu * mu) by (apply Rmult_lt_0_compat; assumption).
  assert (P0 : 0 <= sumsq p (mv n (J g) D)) by apply sumsq_nonneg. assert (Q0 : 0 <= sumsq n D) by apply sumsq_nonneg.
  assert (Q1 : 0 < sumsq n D).
  { destruct Q0 as [|Z]; [assumption|]. exfalso. symmetry in Z. assert (HD0 := proj1 (sumsq_zero n D) Z).
    assert (Z2 : sumsq n (G g) = 0); [|lra]. apply sumsq_zero. intros i Hi. specialize (H i Hi). assert (mv n (damped p (J g) mu) D i = 0); [|lra].
    unfold mv. rewrite (sumR_ext n _ (fun _ => 0)); [apply sumR_zero|]. intros k Hk. rewrite HD0 by exact Hk. ring. }
  assert (MQ : 0 < mu * mu * sumsq n D) by (apply Rmult_lt_0_compat; assumption).
  assert (D0 : 0 < den) by (unfold den; lra). split; [exact D0|]. intros Hlt.
  apply (Rmult_lt_compat_r den) in Hlt; [|exact D0]. unfold Rdiv in Hlt. rewrite Rmult_assoc, Rinv_l, Rmult_1_r in Hlt by lra.
  pose proof (Hsm g D) as Sm. pose proof (eqn_dot g mu D H) as Ed. unfold num, den in Hlt.
  set (P := sumsq p (mv n (J g) D)) in *. set (Q := sumsq n D) in *.
  destruct (Rlt_le_dec (2 * (1 - beta_0) * (mu * mu)) L) as [|C]; [assumption|exfalso].
  assert (L * Q <= 2 * (1 - beta_0) * (mu * mu) * Q) by (apply Rmult_le_compat_r; lra).
  assert (beta_0 * P <= 1 * P) by (apply Rmult_le_compat_r; lra). lra.
Qed.

Lemma small_damping mu : 0 < mu -> 2 * (1 - beta_0) * (mu * mu) < L -> mu * 2 * (mu * 2) <= M2.
Proof.
  intros Hmu H. apply Rle_trans with (2 * L / (1 - beta_0)); [|apply Rmax_r]. apply (Rmult_le_reg_r (1 - beta_0)); [lra|].
  replace (2 * L / (1 - beta_0) * (1 - beta_0)) with (2 * L) by (field; lra). lra.
Qed.

Lemma search_conv : forall fuel x g mu, is_col x n g -> 0 < mu -> mu * mu <= M2 -> 0 < sumsq n (G g) ->
  (lm_search fuel beta_0 beta_1 func jac x mu = Ret None \/
   exists d D mu0 mu1, lm_search fuel beta_0 beta_1 func jac x mu = Ret (Some (d, mu1)) /\ is_col d n D /\ 0 < mu0 /\ mu0 * mu0 <= M2 /\ mu / 2 <= mu1 /\ mu1 * mu1 <= M2 /\
     lm_step n p F J beta_0 g mu0 D) /\
  (forall k, fuel = S k -> L <= 2 * (1 - beta_0) * (mu * 2 ^ k * (mu * 2 ^ k)) -> lm_search fuel beta_0 beta_1 func jac x mu <> Ret None).
Proof.
  induction fuel as [|fuel IH]; intros x g mu Hx Hmu HM HG. { split; [left; reflexivity|]. intros k Hk. discriminate. }
  cbn [lm_search]. destruct (lm_trial_spec func jac n p F J HF HJ Hn Hp Hshape HS x g mu Hx Hmu) as (d & D & E & Hd & Heq). rewrite E. cbn [bind].
  destruct (reject g mu D Hmu Heq HG) as (D0 & Rj).
  set (num := sumsq p (F g) - sumsq p (F (fun i => g i + D i))) in *. set (den := sumsq p (mv n (J g) D) + 2 * (mu * mu) * sumsq n D) in *.
  destruct (ltb (num / den) beta_0) eqn:El.
  - apply R_ltb_true in El. specialize (Rj El). pose proof (small_damping mu Hmu Rj) as SD. change (@mul R R_ops mu two) with (mu * 2).
    destruct (IH x g (mu * 2) Hx ltac:(lra) SD HG) as (A & B). split.
    + destruct A as [A|(d' & D' & mu0 & mu1 & E' & Hd' & H1 & H2 & H3 & H4 & H5)]; [left; exact A|right].
      exists d', D', mu0, mu1. split; [exact E'|]. split; [exact Hd'|]. split; [exact H1|]. split; [exact H2|]. split; [lra|]. split; [exact H4|exact H5].
    + intros k Hk HLk. injection Hk as ->. destruct k as [|k]. { exfalso. cbn [pow] in HLk. lra. }
      apply (B k eq_refl). replace (mu * 2 * 2 ^ k) with (mu * 2 ^ S k) by (cbn [pow]; ring). exact HLk.
  - apply R_ltb_false in El.
    assert (Hst : lm_step n p F J beta_0 g mu D).
    { split; [exact Heq|]. fold den. apply (Rmult_le_compat_r den) in El; [|lra]. unfold Rdiv in El. rewrite Rmult_assoc, Rinv_l in El by lra. unfold num in El. lra. }
    split; [right|intros k _ _; destruct (ltb beta_1 (num / den)); discriminate].
    assert (Hh : mu / 2 * (mu / 2) <= M2) by nra.
    destruct (ltb beta_1 (num / den)); [exists d, D, mu, (mu / 2)|exists d, D, mu, mu]; (split; [reflexivity|]); (split; [exact Hd|]); (split; [exact Hmu|]); (split; [exact HM|]);
      (split; [lra|]); (split; [first [exact Hh|exact HM]|exact Hst]).
Qed.

(** Runs of every length up to iters, or up to the first stationary point. *)
Lemma loop_conv fuel : forall iters x g mu, is_col x n g -> 0 < mu -> mu * mu <= M2 ->
  (exists X D M, X 0%nat = g /\ (forall k, (k <= iters)%nat -> exists y, lm_loop k fuel beta_0 beta_1 func jac x mu = Ret (Some y) /\ is_col y n (X k)) /\
     forall k, (k < iters)%nat -> 0 < M k /\ M k * M k <= M2 /\ X (S k) = (fun i => X k i + D k i) /\ lm_step n p F J beta_0 (X k) (M k) (D k)) \/
  (exists k y h, (k < iters)%nat /\ lm_loop k fuel beta_0 beta_1 func jac x mu = Ret (Some y) /\ is_col y n h /\ sumsq n (G h) = 0) \/
  (lm_loop iters fuel beta_0 beta_1 func jac x mu = Ret None /\
   forall m, fuel = (m + iters)%nat -> (0 < m)%nat -> 2 * (1 - beta_0) * (mu * 2 ^ (m - 1) * (mu * 2 ^ (m - 1))) < L).
Proof.
  induction iters as [|iters IH]; intros x g mu Hx Hmu HM.
  - left. exists (fun _ => g), (fun _ => g), (fun _ => 0). split; [reflexivity|]. split; [|intros; lia]. intros k Hk. replace k with 0%nat by lia. exists x. split; [reflexivity|exact Hx].
  - destruct (Req_dec (sumsq n (G g)) 0) as [Z|Z]. { right. left. exists 0%nat, x, g. split; [lia|]. split; [reflexivity|]. split; [exact Hx|exact Z]. }
    assert (HG : 0 < sumsq n (G g)) by (pose proof (sumsq_nonneg n (G g)); lra).
    destruct (search_conv fuel x g mu Hx Hmu HM HG) as ([E|(d & D & mu0 & mu1 & E & Hd & H1 & H2 & H3 & H4 & H5)] & T).
    + right. right. cbn [lm_loop]. rewrite E. split; [reflexivity|]. intros m Hm Hm0. apply Rnot_le_lt. intro C.
      apply (T (fuel - 1)%nat ltac:(lia)); [|exact E]. eapply Rle_trans; [exact C|]. apply Rmult_le_compat_l; [lra|].
      assert (2 ^ (m - 1) <= 2 ^ (fuel - 1)) by (apply Rle_pow; [lra|lia]). assert (0 < 2 ^ (m - 1)) by (apply pow_lt; lra).
      assert (0 <= mu * 2 ^ (m - 1) <= mu * 2 ^ (fuel - 1)) by (split; [apply Rmult_le_pos; lra|apply Rmult_le_compat_l; lra]). apply Rmult_le_compat; lra.
    + destruct (vadd_col x d n g D Hx Hd) as (x1 & E8 & Hx1).
      assert (Step : forall k, lm_loop (S k) fuel beta_0 beta_1 func jac x mu = lm_loop k fuel beta_0 beta_1 func jac x1 mu1).
      { intros k. cbn [lm_loop]. rewrite E. cbn [bind]. rewrite E8. reflexivity. }
      destruct (IH x1 _ mu1 Hx1 ltac:(lra) H4) as [(X & DD & M & X0 & Hk & Hs)|[(k & y & h & Hk & Ek & Hy & Zh)|(EN & HNf)]].
      * left. exists (fun k => match k with O => g | S k => X k end), (fun k => match k with O => D | S k => DD k end), (fun k => match k with O => mu0 | S k => M k end).
        split; [reflexivity|]. split.
        -- intros [|k] Hle; [exists x; split; [reflexivity|exact Hx]|]. destruct (Hk k ltac:(lia)) as (y & Ey & Hy). exists y. split; [rewrite Step; exact Ey|exact Hy].
        -- intros [|k] Hlt; [|apply Hs; lia]. split; [exact H1|]. split; [exact H2|]. split; [exact X0|exact H5].
      * right. left. exists (S k), y, h. split; [lia|]. split; [rewrite Step; exact Ek|]. split; [exact Hy|exact Zh].
      * right. right. split; [rewrite Step; exact EN|]. intros m Hm Hm0. specialize (HNf (S m) ltac:(lia) ltac:(lia)). replace (S m - 1)%nat with (S (m - 1)) in HNf by lia.
        eapply Rle_lt_trans; [|exact HNf]. apply Rmult_le_compat_l; [lra|]. assert (0 < 2 ^ (m - 1)) by (apply pow_lt; lra). cbn [pow].
        assert (mu / 2 * (2 * 2 ^ (m - 1)) <= mu1 * (2 * 2 ^ (m - 1))) by (apply Rmult_le_compat_r; lra).
        assert (0 <= mu * 2 ^ (m - 1) <= mu1 * (2 * 2 ^ (m - 1))) by (split; [apply Rmult_le_pos; lra|lra]). apply Rmult_le_compat; lra.
Qed.

Lemma half_le_M2 : 1 / 2 * (1 / 2) <= M2.
Proof. apply Rle_trans with (1 / 4); [lra|apply Rmax_l]. Qed.

Lemma lm_terminates iters x g : is_col x n g ->
  exists fuel0, forall fuel, (fuel0 <= fuel)%nat ->
    (exists w, lm_min iters fuel beta_0 beta_1 func jac x = Ret (Some w)) \/
    (exists k y h, (k < iters)%nat /\ lm_min k fuel beta_0 beta_1 func jac x = Ret (Some y) /\ is_col y n h /\ forall i, (i < n)%nat -> G h i = 0).
Proof.
  intros Hx. destruct (Pow_x_infinity 2 ltac:(rewrite Rabs_pos_eq; lra) (L / (1 - beta_0) + 4)) as (m & Hm).
  exists (m + iters + 2)%nat. intros fuel Hf. unfold lm_min. change (@half R R_pops) with (1 / 2).
  destruct (loop_conv fuel iters x g (1 / 2) Hx ltac:(lra) half_le_M2) as [(X & D & M & X0 & Hk & _)|[(k & y & h & Hk & Ek & Hy & Zh)|(EN & HN)]].
  - left. destruct (Hk iters (le_n _)) as (w & E & _). exists w. exact E.
  - right. exists k, y, h. split; [exact Hk|]. split; [exact Ek|]. split; [exact Hy|]. now apply sumsq_zero.
  - exfalso. specialize (HN (fuel - iters)%nat ltac:(lia) ltac:(lia)). specialize (Hm (fuel - iters - 1)%nat ltac:(lia)). set (q := 2 ^ (fuel - iters - 1)) in *.
    assert (q0 : 0 < q) by (apply pow_lt; lra). rewrite Rabs_pos_eq in Hm by lra.
    assert (Lb : L = (1 - beta_0) * (L / (1 - beta_0))) by (field; lra). set (r := L / (1 - beta_0)) in *. assert (r0 : 0 <= r) by (apply Rmult_le_pos; [exact HL|left; apply Rinv_0_lt_compat; lra]).
    assert (QQ : 2 * r <= 2 * (1 / 2 * q * (1 / 2 * q))) by nra. rewrite Lb in HN. assert ((1 - beta_0) * r <= (1 - beta_0) * (2 * (1 / 2 * q * (1 / 2 * q)))) by (apply Rmult_le_compat_l; lra). lra.
Qed.

Lemma lm_stationary A fuel iters x g w : (forall h, sumn p (fun l => sumsq n (J h l)) <= A) -> is_col x n g -> (0 < iters)%nat ->
  lm_min iters fuel beta_0 beta_1 func jac x = Ret (Some w) ->
  exists k y h, (k < iters)%nat /\ lm_min k fuel beta_0 beta_1 func jac x = Ret (Some y) /\ is_col y n h /\
    beta_0 * INR iters * sumsq n (G h) <= Rmax (2 * A) M2 * sumsq p (F g).
Proof.
  intros HA Hx Hi E. unfold lm_min in *. change (@half R R_pops) with (1 / 2) in *.
  assert (C0 : 0 <= Rmax (2 * A) M2) by (eapply Rle_trans; [|apply Rmax_r]; eapply Rle_trans; [|apply half_le_M2]; lra). set (C := Rmax (2 * A) M2) in *.
  destruct (loop_conv fuel iters x g (1 / 2) Hx ltac:(lra) half_le_M2) as [(X & D & M & X0 & Hk & Hs)|[(k & y & h & Hk & Ek & Hy & Zh)|(EN & _)]].
  - assert (St : forall k, (k < iters)%nat -> beta_0 * sumsq n (G (X k)) <= C * (sumsq p (F (X k)) - sumsq p (F (X (S k))))).
    { intros k Hlt. destruct (Hs k Hlt) as (M0 & MM & XS & Eq & De). rewrite XS. pose proof (grad_bound (X k) (M k) (D k) A Eq (HA _) MM) as GB. fold C in GB.
      set (q := sumsq p (mv n (J (X k)) (D k)) + 2 * (M k * M k) * sumsq n (D k)) in *.
      assert (beta_0 * sumsq n (G (X k)) <= beta_0 * (C * q)) by (apply Rmult_le_compat_l; lra).
      assert (C * (beta_0 * q) <= C * (sumsq p (F (X k)) - sumsq p (F (fun i => X k i + D k i)))) by (apply Rmult_le_compat_l; lra). lra. }
    assert (T : forall N, (N <= iters)%nat -> sumn N (fun k => beta_0 * sumsq n (G (X k))) <= C * (sumsq p (F (X 0%nat)) - sumsq p (F (X N)))).
    { induction N as [|N IH]; intros H; [cbn; change (@zero R R_ops) with 0; lra|]. cbn [sumn]. change (@add R R_ops) with Rplus. specialize (IH ltac:(lia)). specialize (St N ltac:(lia)). lra. }
    specialize (T iters (le_n _)). rewrite X0 in T.
    assert (T' : sumn iters (fun k => beta_0 * sumsq n (G (X k))) <= C * sumsq p (F g)).
    { eapply Rle_trans; [exact T|]. apply Rmult_le_compat_l; [exact C0|]. pose proof (sumsq_nonneg p (F (X iters))). lra. }
    destruct (avg_le iters _ _ Hi T') as (k & Hk' & Hbd). destruct (Hk k ltac:(lia)) as (y & Ey & Hy). exists k, y, (X k). split; [exact Hk'|]. split; [exact Ey|]. split; [exact Hy|]. lra.
  - exists k, y, h. split; [exact Hk|]. split; [exact Ek|]. split; [exact Hy|]. rewrite Zh, Rmult_0_r. apply Rmult_le_pos; [exact C0|apply sumsq_nonneg].
  - rewrite EN in E. discriminate.
Qed.
End Conv.

Lemma sumR_1 (f : nat -> R) : sumn 1 f = f 0%nat.
Proof. cbn [sumn]. change (0 + f 0%nat = f 0%nat). ring. Qed.
(** Linear residuals: the sum of squares is exactly quadratic. *)
Lemma lin_smooth p n (A : nat -> nat -> R) (b : nat -> R) g d :
  sumsq p (fun i => mv n A (fun k => g k + d k) i - b i) <=
  sumsq p (fun i => mv n A g i - b i) + 2 * dot n (fun i => sumn p (fun l => A l i * (mv n A g l - b l))) d + sumn p (fun l => sumsq n (A l)) * sumsq n d.
Proof.
  assert (E4 : dot n (fun i => sumn p (fun l => A l i * (mv n A g l - b l))) d = sumn p (fun l => (mv n A g l - b l) * mv n A d l)).
  { unfold dot. rewrite (sumR_ext n _ (fun i => sumn p (fun l => (mv n A g l - b l) * (A l i * d i)))).
    - rewrite sumR_swap. apply sumR_ext. intros l Hl. now rewrite sumR_mul_l.
    - intros i Hi. rewrite <- sumR_mul_r. apply sumR_ext. intros; ring. }
  assert (E5 : sumsq p (fun i => mv n A (fun k => g k + d k) i - b i) =
    sumsq p (fun i => mv n A g i - b i) + 2 * sumn p (fun l => (mv n A g l - b l) * mv n A d l) + sumsq p (mv n A d)).
  { unfold sumsq. rewrite <- sumR_mul_l, <- !sumR_add. apply sumR_ext. intros l Hl.
    replace (mv n A (fun k => g k + d k) l) with (mv n A g l + mv n A d l); [ring|]. unfold mv. rewrite <- sumR_add. apply sumR_ext. intros; ring. }
  rewrite E4, E5. apply Rplus_le_compat_l. unfold sumsq at 1. clear E4 E5. induction p as [|p IH]; cbn [sumn]; [change (@zero R R_ops) with 0; lra|]. change (@add R R_ops) with Rplus.
  pose proof (cauchy_schwarz_sq n (A p) d). rewrite Rmult_plus_distr_r. unfold mv at 3 4. lra.
Qed.
Lemma hub_lm_smooth (g d : nat -> R) :
  sumsq 1 (fun _ => sqrt (1 + (g 0%nat + d 0%nat) * (g 0%nat + d 0%nat))) <=
  sumsq 1 (fun _ => sqrt (1 + g 0%nat * g 0%nat)) + 2 * dot 1 (fun _ => sumn 1 (fun _ => g 0%nat / sqrt (1 + g 0%nat * g 0%nat) * sqrt (1 + g 0%nat * g 0%nat))) d + 1 * sumsq 1 d.
Proof.
  unfold sumsq, dot. rewrite !sumR_1, !hub_sq. pose proof (hub_ge (g 0%nat)). replace (g 0%nat / sqrt (1 + g 0%nat * g 0%nat) * sqrt (1 + g 0%nat * g 0%nat)) with (g 0%nat) by (field; lra). lra.
Qed.
Lemma hub_lm_grad (g : nat -> R) : sumn 1 (fun _ => g 0%nat / sqrt (1 + g 0%nat * g 0%nat) * sqrt (1 + g 0%nat * g 0%nat)) = g 0%nat.
Proof. rewrite sumR_1. pose proof (hub_ge (g 0%nat)). field. lra. Qed.
Lemma hub_lm_bound (g : nat -> R) : sumn 1 (fun _ => sumsq 1 (fun _ => g 0%nat / sqrt (1 + g 0%nat * g 0%nat))) <= 1.
Proof.
  unfold sumsq. rewrite !sumR_1. pose proof (hub_ge (g 0%nat)) as H1. pose proof (hub_sq (g 0%nat)) as H2. set (s := sqrt _) in *. set (x := g 0%nat) in *.
  replace (x / s * (x / s)) with (x * x / (s * s)) by (field; lra). rewrite H2. apply (Rmult_le_reg_r (1 + x * x)); [nra|]. unfold Rdiv. rewrite Rmult_assoc, Rinv_l by nra. lra.
Qed.
Lemma e2_frob_nonneg : 0 <= sumn 2 (fun l => sumsq 2 (e2_A l)).
Proof. cbn [sumn]. change (0 <= 0 + sumsq 2 (e2_A 0%nat) + sumsq 2 (e2_A 1%nat)). pose proof (sumsq_nonneg 2 (e2_A 0%nat)). pose proof (sumsq_nonneg 2 (e2_A 1%nat)). lra. Qed.
