(** Newton-Raphson and implicit Euler. *)
From Coq Require Import Arith List Bool Lia Reals Lra.
From Verif Require Import Outcome Scalar RealOps Matrix_model Vector_model LU_model Decomp_model Ode_model Optim_model
  Matrix_spec LU_spec Decomp_spec Optim_spec Ode_spec Matrix_proofs Vector_proofs Sums Subst_proofs LUProps_proofs Norm_proofs Ode_proofs OdeOrder_proofs OdeConseq_proofs.
Import ListNotations.
Local Open Scope R_scope.

Lemma regular_solver_ok (A : matrix R) n f : is_mat A n n f -> lu_regular A n -> solver_ok A n f.
Proof. intros HA HR b g Hb. exact (solve_vec_ok R_FieldLaws A n f b g HA Hb HR). Qed.

Section NR.
Variables (func : vector R -> outcome (vector R)) (jac : vector R -> outcome (matrix R)) (n : nat).
Variables (F : (nat -> R) -> nat -> R) (J : (nat -> R) -> nat -> nat -> R).
Hypothesis HF : computes func n n F.
Hypothesis HJ : computes_mat jac n n n J.

Lemma find_root_step iters tol x g : is_col x n g -> (forall A, jac x = Ret A -> solver_ok A n (J g)) ->
  exists B x', is_col x' n (fun i => g i - B i) /\ (forall i, (i < n)%nat -> mv n (J g) B i = F g i) /\
    find_root (S iters) tol func jac x = (if R_ltb (enorm n B) tol then Ret (Ok x) else find_root iters tol func jac x').
Proof.
  intros Hx HS. cbn [find_root].
  destruct (HF x g Hx) as (fx & E1 & Hfx). rewrite E1. cbn [bind].
  destruct (HJ x g Hx) as (A & E2 & HA). rewrite E2. cbn [bind].
  destruct (HS A E2 fx (F g) Hfx) as (b & B & E3 & Hb & HB & _). rewrite E3. cbn [bind runwrap].
  destruct (vsub_col x b n g B Hx Hb) as (x' & E4 & Hx'). rewrite E4. cbn [bind].
  destruct (vsub_col x x' n _ _ Hx Hx') as (d & E5 & Hd). rewrite E5. cbn [bind].
  change (@two R R_pops) with 2. rewrite (vp_norm_2 d n _ (or_introl Hd)). cbn [bind].
  exists B, x'. split; [exact Hx'|]. split; [exact HB|].
  rewrite (enorm_ext n _ B) by (intros i Hi; cbn [sub R_ops]; lra). reflexivity.
Qed.

Section Global.
Hypothesis HS : forall x g A, is_col x n g -> jac x = Ret A -> solver_ok A n (J g).

Lemma find_root_spec tol : forall iters x0 g0, is_col x0 n g0 ->
  exists r k X B, find_root iters tol func jac x0 = Ret r /\ newton_run n F J g0 k X B /\
    match r with
    | Ok x => (1 <= k <= iters)%nat /\ is_col x n (X (k - 1)%nat) /\ enorm n (B (k - 1)%nat) < tol /\
              forall j, (j < k - 1)%nat -> tol <= enorm n (B j)
    | Err => k = iters /\ forall j, (j < k)%nat -> tol <= enorm n (B j)
    end.
Proof.
  induction iters as [|iters IH]; intros x0 g0 Hx.
  - exists Err, 0%nat, (fun _ => g0), (fun _ => g0). split; [reflexivity|]. split; [split; [reflexivity|intros; lia]|].
    split; [reflexivity|intros; lia].
  - destruct (find_root_step iters tol x0 g0 Hx (fun A => HS x0 g0 A Hx)) as (B0 & x' & Hx' & HB & E). rewrite E.
    destruct (R_ltb (enorm n B0) tol) eqn:Et.
    + exists (Ok x0), 1%nat, (fun k => match k with O => g0 | S _ => fun i => g0 i - B0 i end), (fun _ => B0).
      split; [reflexivity|]. split.
      * split; [reflexivity|]. intros j Hj. replace j with 0%nat by lia. split; [reflexivity|exact HB].
      * split; [lia|]. split; [exact Hx|]. split; [apply R_ltb_true; exact Et|intros; lia].
    + apply R_ltb_false in Et. destruct (IH x' _ Hx') as (r & k & X & B & Er & (H0 & Hrun) & Hr).
      exists r, (S k), (fun k => match k with O => g0 | S k => X k end), (fun k => match k with O => B0 | S k => B k end).
      split; [exact Er|]. split.
      * split; [reflexivity|]. intros j Hj. destruct j as [|j]; [split; [rewrite H0; reflexivity|exact HB]|].
        apply Hrun. lia.
      * destruct r as [x|].
        -- destruct Hr as (Hk & Hc & Hlt & Hge). replace (S k - 1)%nat with (S (k - 1)) by lia.
           split; [lia|]. split; [exact Hc|]. split; [exact Hlt|]. intros j Hj. destruct j as [|j]; [exact Et|apply Hge; lia].
        -- destruct Hr as (Hk & Hge). split; [lia|]. intros j Hj. destruct j as [|j]; [exact Et|apply Hge; lia].
Qed.

End Global.

(** A root with a good Jacobian is returned at once. *)
Lemma find_root_at_root iters tol x g : is_col x n g -> (forall A, jac x = Ret A -> solver_ok A n (J g)) ->
  (forall i, (i < n)%nat -> F g i = 0) -> 0 < tol -> find_root (S iters) tol func jac x = Ret (Ok x).
Proof.
  intros Hx HS H0 Ht. destruct (HF x g Hx) as (fx & E1 & Hfx). destruct (HJ x g Hx) as (A & E2 & HA).
  destruct (HS A E2 fx (F g) Hfx) as (b & Bu & E3 & Hb & _ & HBu).
  destruct (find_root_step iters tol x g Hx HS) as (B & x' & _ & HB & E). rewrite E.
  assert (Z : forall i, (i < n)%nat -> B i = 0).
  { intros i Hi. rewrite (HBu B HB i Hi). symmetry. apply (HBu (fun _ => 0)); [|exact Hi].
    intros r Hr. rewrite H0 by assumption. unfold mv. rewrite (sumR_ext _ _ (fun _ => 0)); [apply sumR_zero|intros; ring]. }
  replace (R_ltb (enorm n B) tol) with true; [reflexivity|]. symmetry. apply R_ltb_true.
  rewrite (enorm_ext n B (fun _ => 0)) by exact Z. unfold enorm, sumsq.
  rewrite (sumR_ext _ _ (fun _ => 0)) by (intros; ring). rewrite sumR_zero, sqrt_0. exact Ht.
Qed.

(** Affine equations: the exact solution after one step, or a start closer than the tolerance. *)
Lemma find_root_affine iters tol x g Jc c s : is_col x n g -> 0 < tol ->
  (forall y h A, is_col y n h -> jac y = Ret A -> solver_ok A n (J h)) ->
  (forall h, J h = Jc) -> (forall h i, (i < n)%nat -> F h i = mv n Jc h i - c i) ->
  (forall i, (i < n)%nat -> mv n Jc s i = c i) ->
  exists w h, find_root (S (S iters)) tol func jac x = Ret (Ok w) /\ is_col w n h /\
    ((forall i, (i < n)%nat -> h i = s i) \/ (w = x /\ enorm n (fun i => g i - s i) < tol)).
Proof.
  intros Hx Ht HS HJc HFa Hs.
  destruct (find_root_step (S iters) tol x g Hx (fun A => HS x g A Hx)) as (B & x' & Hx' & HB & E).
  assert (HBs : forall i, (i < n)%nat -> B i = g i - s i).
  { destruct (HF x g Hx) as (fx & E1 & Hfx). destruct (HJ x g Hx) as (A & E2 & HA).
    destruct (HS x g A Hx E2 fx (F g) Hfx) as (b & Bu & E3 & Hb & _ & HBu).
    intros i Hi. rewrite (HBu B HB i Hi). symmetry. apply (HBu (fun i => g i - s i)); [|exact Hi].
    intros r Hr. rewrite HFa, HJc, <- Hs by assumption. unfold mv. cbv beta.
    rewrite (sumR_ext _ _ (fun k => Jc r k * g k + (-1) * (Jc r k * s k))) by (intros; ring).
    rewrite sumR_add, sumR_mul_l. cbv beta. lra. }
  rewrite E. destruct (R_ltb (enorm n B) tol) eqn:Et.
  - exists x, g. split; [reflexivity|]. split; [exact Hx|]. right. split; [reflexivity|].
    rewrite <- (enorm_ext n B) by exact HBs. apply R_ltb_true. exact Et.
  - exists x', (fun i => g i - B i). split; [|split; [exact Hx'|left; intros i Hi; rewrite HBs by assumption; lra]].
    apply (find_root_at_root iters tol x' (fun i => g i - B i) Hx' (fun A => HS x' _ A Hx')); [|exact Ht].
    intros i Hi. rewrite HFa by assumption. rewrite <- Hs by assumption.
    unfold mv. rewrite (sumR_ext _ (fun k => Jc i k * (g k - B k)) (fun k => Jc i k * s k)); [lra|].
    intros k Hk. rewrite HBs by assumption. ring.
Qed.

(** Local convergence. *)
Lemma find_root_local r rho m K tol : 0 < tol -> 0 < m -> 0 <= K -> K * rho <= m / 2 ->
  (forall x g A, is_col x n g -> enorm n (fun i => g i - r i) <= rho -> jac x = Ret A -> solver_ok A n (J g)) ->
  (forall g y, enorm n (fun i => g i - r i) <= rho -> m * enorm n y <= enorm n (mv n (J g) y)) ->
  (forall g, enorm n (fun i => g i - r i) <= rho ->
     enorm n (fun i => F g i - mv n (J g) (fun k => g k - r k) i) <= K * Rsqr (enorm n (fun i => g i - r i))) ->
  forall iters x0 g0 e0, is_col x0 n g0 -> enorm n (fun i => g0 i - r i) <= e0 -> e0 <= rho ->
  3 / 2 * e0 < tol * 2 ^ iters ->
  exists x g, find_root (S iters) tol func jac x0 = Ret (Ok x) /\ is_col x n g /\
    enorm n (fun i => g i - r i) < 2 * tol.
Proof.
  intros Ht Hm HK HKr HS Hinv Htay. induction iters as [|iters IH]; intros x0 g0 e0 Hx He He0 Hk.
  all: assert (Hr : enorm n (fun i => g0 i - r i) <= rho) by lra.
  all: set (e := enorm n (fun i => g0 i - r i)) in *.
  all: assert (Hepos : 0 <= e) by apply enorm_nonneg.
  1: destruct (find_root_step 0 tol x0 g0 Hx (fun A => HS x0 g0 A Hx Hr)) as (B & x' & Hx' & HB & E).
  2: destruct (find_root_step (S iters) tol x0 g0 Hx (fun A => HS x0 g0 A Hx Hr)) as (B & x' & Hx' & HB & E).
  all: assert (He' : enorm n (fun i => g0 i - B i - r i) <= e / 2).
  1,3: pose proof (Hinv g0 (fun i => g0 i - B i - r i) Hr) as H1;
       pose proof (Htay g0 Hr) as H2; fold e in H2; unfold Rsqr in H2;
       rewrite (enorm_ext n (mv n (J g0) (fun i => g0 i - B i - r i)) (fun i => (-1) * (F g0 i - mv n (J g0) (fun k => g0 k - r k) i))) in H1;
       [rewrite enorm_scale in H1; rewrite Rabs_left in H1 by lra|
        intros i Hi; rewrite <- HB by assumption; unfold mv;
        rewrite (sumR_ext _ _ (fun k => J g0 i k * (g0 k - r k) + (-1) * (J g0 i k * B k))) by (intros; ring);
        rewrite sumR_add, sumR_mul_l; cbv beta; ring];
       apply (Rmult_le_reg_l m); [exact Hm|];
       assert (K * e * e <= K * rho * e) by (apply Rmult_le_compat_r; [exact Hepos|]; apply Rmult_le_compat_l; assumption);
       assert (K * rho * e <= m / 2 * e) by (apply Rmult_le_compat_r; [exact Hepos|exact HKr]); lra.
  all: assert (HBe : enorm n B <= 3 / 2 * e).
  1,3: rewrite (enorm_ext n B (fun i => (g0 i - r i) + (-1) * (g0 i - B i - r i))) by (intros; ring);
       eapply Rle_trans; [apply enorm_triangle|]; rewrite enorm_scale; rewrite Rabs_left by lra; fold e; lra.
  all: assert (HeB : e <= 2 * enorm n B).
  1,3: assert (e <= enorm n B + enorm n (fun i => g0 i - B i - r i)) by
         (unfold e; rewrite (enorm_ext n (fun i => g0 i - r i) (fun i => B i + (g0 i - B i - r i))) by (intros; ring); apply enorm_triangle); lra.
  all: rewrite E; destruct (R_ltb (enorm n B) tol) eqn:Et.
  1,3: apply R_ltb_true in Et; exists x0, g0; split; [reflexivity|]; split; [exact Hx|]; fold e; lra.
  - apply R_ltb_false in Et. simpl in Hk. lra.
  - apply (IH x' _ (e0 / 2) Hx'); [cbv beta; lra|lra|]. simpl in Hk. lra.
Qed.

(** The error is squared in every step. *)
Lemma newton_quadratic r m K g B : 0 < m ->
  (forall y, m * enorm n y <= enorm n (mv n (J g) y)) ->
  enorm n (fun i => F g i - mv n (J g) (fun k => g k - r k) i) <= K * Rsqr (enorm n (fun i => g i - r i)) ->
  (forall i, (i < n)%nat -> mv n (J g) B i = F g i) ->
  enorm n (fun i => (g i - B i) - r i) <= K / m * Rsqr (enorm n (fun i => g i - r i)).
Proof.
  intros Hm Hinv H2 HB. pose proof (Hinv (fun i => g i - B i - r i)) as H1.
  rewrite (enorm_ext n (mv n (J g) (fun i => g i - B i - r i)) (fun i => (-1) * (F g i - mv n (J g) (fun k => g k - r k) i))) in H1.
  - rewrite enorm_scale in H1; rewrite Rabs_left in H1 by lra.
    apply (Rmult_le_reg_l m); [exact Hm|]. replace (m * (K / m * Rsqr (enorm n (fun i => g i - r i)))) with (K * Rsqr (enorm n (fun i => g i - r i))) by (field; lra). lra.
  - intros i Hi; rewrite <- HB by assumption; unfold mv;
        rewrite (sumR_ext _ _ (fun k => J g i k * (g k - r k) + (-1) * (J g i k * B k))) by (intros; ring);
        rewrite sumR_add, sumR_mul_l; cbv beta; ring.
Qed.
End NR.

(** |A b| <= |A|_F |b| *)
Lemma mv_bound m n A b : enorm m (mv n A b) <= frob m n A * enorm n b.
Proof.
  unfold enorm at 1, frob. unfold enorm. rewrite <- sqrt_mult_alt.
  2:{ induction m as [|m IH]; [simpl; lra|]. rewrite sumR_S. unfold sumsq at 2.
      assert (0 <= sumn n (fun i => A m i * A m i)) by (clear; induction n; [simpl; lra|rewrite sumR_S; nra]). lra. }
  apply sqrt_le_1_alt. unfold sumsq at 1. rewrite <- sumR_mul_r.
  induction m as [|m IH]; [simpl; lra|]. rewrite !sumR_S. apply Rplus_le_compat; [exact IH|].
  unfold mv. apply cauchy_schwarz_sq.
Qed.

(** ** 1 x 1 systems *)
Lemma solve_1x1 (A b : matrix R) f g : is_mat A 1 1 f -> is_col b 1 g ->
  exists w, solve_vec A b = Ret (Ok w) /\ is_col w 1 (fun _ => if R_eqb (f 0%nat 0%nat) 0 then 1 else g 0%nat / f 0%nat 0%nat).
Proof.
  intros HA Hb.
  assert (EA : A = mkMatrix 1 1 [f 0%nat 0%nat]).
  { apply (is_mat_unique A _ 1 1 f HA). apply is_mat_intro; auto. intros i j Hi Hj.
    replace i with 0%nat by lia. replace j with 0%nat by lia. reflexivity. }
  assert (Eb : b = mkMatrix 1 1 [g 0%nat]).
  { apply (is_mat_unique b _ 1 1 _ Hb). apply is_mat_intro; auto. intros i j Hi Hj.
    replace i with 0%nat by lia. replace j with 0%nat by lia. reflexivity. }
  subst A b. set (a := f 0%nat 0%nat). set (c := g 0%nat).
  exists (mkMatrix 1 1 [if R_eqb a 0 then 1 else c / a]). split.
  - cbv [solve_vec dec_lu rows cols data]. cbn.
    destruct (R_eqb a 0) eqn:E; cbn; rewrite ?E; cbn; do 3 f_equal. f_equal. field. apply R_eqb_false in E. exact E.
  - apply is_mat_intro; auto. intros i j Hi Hj. replace i with 0%nat by lia. replace j with 0%nat by lia. reflexivity.
Qed.

(** ** Implicit Euler *)
Section IE.
Variables (f : R -> vector R -> outcome (vector R)) (jac : R -> vector R -> outcome (matrix R)) (n : nat).
Variables (G : R -> (nat -> R) -> nat -> R) (JG : R -> (nat -> R) -> nat -> nat -> R).
Hypothesis HG : forall t, computes (f t) n n (G t).
Hypothesis HJG : forall t, computes_mat (jac t) n n n (JG t).

Lemma ie_eval_computes t x g h : is_col x n g ->
  computes (ie_eval f t x h) n n (fun z i => g i + G t z i * h - z i).
Proof.
  intros Hx z gz Hz. unfold ie_eval. destruct (HG t z gz Hz) as (y & E & Hy). rewrite E. cbn [bind].
  destruct (vadd_col x (vmul_scalar y h) n g _ Hx (vmul_scalar_col y n _ h Hy)) as (s & E2 & Hs). rewrite E2. cbn [bind].
  destruct (vsub_col s z n _ _ Hs Hz) as (d & E3 & Hd). exists d. split; [exact E3|exact Hd].
Qed.

Lemma ie_jac_computes t h : computes_mat (ie_jac jac t h) n n n (fun z i j => JG t z i j * h - delta i j).
Proof.
  intros z gz Hz. unfold ie_jac. destruct (HJG t z gz Hz) as (A & E & HA). rewrite E. cbn [bind].
  rewrite (is_mat_rows _ _ _ _ Hz). destruct (mone_spec (T:=R) n) as (I & E1 & HI). rewrite E1. cbn [bind].
  destruct (msub_spec _ _ n n _ _ (mapply_spec (fun x => x * h) A n n _ HA) HI) as (D & E2 & HD).
  exists D. split; [exact E2|exact HD].
Qed.

(** One step: the returned point has a Newton correction shorter than the tolerance. *)
Lemma ie_step_spec iters tol t x g h : is_col x n g ->
  (forall z gz A, is_col z n gz -> ie_jac jac (t + h) h z = Ret A -> solver_ok A n (fun i j => JG (t + h) gz i j * h - delta i j)) ->
  forall z, ie_step iters tol f jac t x h = Ret z ->
  exists gz B, is_col z n gz /\ enorm n B < tol /\
    forall i, (i < n)%nat -> mv n (fun i j => JG (t + h) gz i j * h - delta i j) B i = g i + G (t + h) gz i * h - gz i.
Proof.
  intros Hx HS z. unfold ie_step. cbv zeta. cbn [add R_ops].
  destruct (find_root_spec _ _ n _ _ (ie_eval_computes (t + h) x g h Hx) (ie_jac_computes (t + h) h) HS tol iters x g Hx)
    as (r & k & X & B & E & (H0 & Hrun) & Hr).
  rewrite E. cbn [bind]. destruct r as [w|]; cbn [runwrap]; [|discriminate].
  intros Ew. injection Ew as <-. destruct Hr as (Hk & Hc & Hlt & _).
  exists (X (k - 1)%nat), (B (k - 1)%nat). split; [exact Hc|]. split; [exact Hlt|]. apply Hrun. lia.
Qed.

(** Linear systems of equations. *)
Lemma ie_step_linear iters tol t x g h (M : nat -> nat -> R) c s : is_col x n g -> 0 < tol -> (2 <= iters)%nat ->
  (forall t z i j, JG t z i j = M i j) ->
  (forall t z i, (i < n)%nat -> G t z i = mv n M z i + c i) ->
  (forall A, is_mat A n n (fun i j => M i j * h - delta i j) -> solver_ok A n (fun i j => M i j * h - delta i j)) ->
  (forall i, (i < n)%nat -> s i = g i + h * (mv n M s i + c i)) ->
  exists z gz, ie_step iters tol f jac t x h = Ret z /\ is_col z n gz /\
    ((forall i, (i < n)%nat -> gz i = s i) \/ (z = x /\ enorm n (fun i => g i - s i) < tol)).
Proof.
  intros Hx Ht Hk HM HGl HS Hs. unfold ie_step. cbv zeta. cbn [add R_ops]. destruct iters as [|[|iters]]; try lia.
  destruct (find_root_affine (ie_eval f (t + h) x h) (ie_jac jac (t + h) h) n (fun z i => g i + G (t + h) z i * h - z i)
     (fun _ i j => M i j * h - delta i j) (ie_eval_computes (t + h) x g h Hx)) with (iters := iters) (tol := tol) (x := x) (g := g)
     (Jc := fun i j => M i j * h - @delta R _ i j) (c := fun i => - (g i + h * c i)) (s := s) as (w & hh & E & Hw & Hor); auto.
  - intros z gz Hz. destruct (ie_jac_computes (t + h) h z gz Hz) as (A & E & HA). exists A. split; [exact E|].
    revert HA. apply is_mat_ext. intros i j _ _. rewrite HM. reflexivity.
  - intros y gy A Hy E. apply HS. destruct (ie_jac_computes (t + h) h y gy Hy) as (A' & E' & HA).
    rewrite E in E'. injection E' as <-. revert HA. apply is_mat_ext. intros i j _ _. rewrite HM. reflexivity.
  - intros z i Hi. rewrite HGl by assumption.
    replace (mv n (fun i j => M i j * h - delta i j) z i) with (mv n M z i * h - z i); [ring|].
    unfold mv. rewrite (sumR_ext _ (fun k => (M i k * h - delta i k) * z k) (fun k => M i k * z k * h + (-1) * (delta i k * z k))) by (intros; ring).
    rewrite sumR_add, sumR_mul_l, sumR_mul_r. replace (sumn n (fun k => delta i k * z k)) with (z i) by (symmetry; exact (sumn_delta_l R_RingLaws n i z Hi)). ring.
  - intros i Hi.
    replace (mv n (fun i j => M i j * h - delta i j) s i) with (mv n M s i * h - s i).
    + pose proof (Hs i Hi). lra.
    + unfold mv. rewrite (sumR_ext _ (fun k => (M i k * h - delta i k) * s k) (fun k => M i k * s k * h + (-1) * (delta i k * s k))) by (intros; ring).
    rewrite sumR_add, sumR_mul_l, sumR_mul_r. replace (sumn n (fun k => delta i k * s k)) with (s i) by (symmetry; exact (sumn_delta_l R_RingLaws n i s Hi)). ring.
  - exists w, hh. rewrite E. cbn [bind runwrap]. auto.
Qed.
End IE.

(** x' = x^2 + 1: the equation of the step has no solution, and the step panics. *)
Definition tan_rhs (_ : R) (x : vector R) : outcome (vector R) :=
  let! a := vvget x 0 in Ret (mkMatrix 1 1 [a * a + 1]).
Definition tan_jac (_ : R) (x : vector R) : outcome (matrix R) :=
  let! a := vvget x 0 in Ret (mkMatrix 1 1 [2 * a]).

Lemma tan_col (x : R) : is_mat (mkMatrix 1 1 [x]) 1 1 (fun _ _ : nat => x).
Proof. apply is_mat_intro; auto. intros i j Hi Hj. replace i with 0%nat by lia. replace j with 0%nat by lia. reflexivity. Qed.
Lemma tan_computes t : computes (tan_rhs t) 1 1 (fun g _ => g 0%nat * g 0%nat + 1).
Proof. intros x g H. unfold tan_rhs. rewrite (col_get x 1 g 0 H) by lia. cbn [bind]. eexists. split; [reflexivity|]. apply tan_col. Qed.
Lemma tan_jac_computes t : computes_mat (tan_jac t) 1 1 1 (fun g _ _ => 2 * g 0%nat).
Proof. intros x g H. unfold tan_jac. rewrite (col_get x 1 g 0 H) by lia. cbn [bind]. eexists. split; [reflexivity|]. apply tan_col. Qed.

Lemma tan_never tol : tol <= 1 / 2 -> forall iters x0 g0 x, is_col x0 1 g0 -> is_col x 1 (fun _ => 0) ->
  find_root iters tol (ie_eval tan_rhs 1 x 1) (ie_jac tan_jac 1 1) x0 = Ret Err.
Proof.
  intros Ht. induction iters as [|iters IH]; intros x0 g0 x Hx0 Hx; [reflexivity|].
  cbn [find_root].
  destruct (ie_eval_computes tan_rhs 1 _ tan_computes 1 x _ 1 Hx x0 g0 Hx0) as (fx & E1 & Hfx). rewrite E1. cbn [bind].
  destruct (ie_jac_computes tan_jac 1 _ tan_jac_computes 1 1 x0 g0 Hx0) as (A & E2 & HA). rewrite E2. cbn [bind].
  destruct (solve_1x1 A fx _ _ HA Hfx) as (b & E3 & Hb). rewrite E3. cbn [bind runwrap].
  destruct (vsub_col x0 b 1 _ _ Hx0 Hb) as (x' & E4 & Hx'). rewrite E4. cbn [bind].
  destruct (vsub_col x0 x' 1 _ _ Hx0 Hx') as (d & E5 & Hd). rewrite E5. cbn [bind].
  change (@two R R_pops) with 2. rewrite (vp_norm_2 d 1 _ (or_introl Hd)). cbn [bind].
  match goal with |- context [ltb (enorm 1 ?u) tol] => set (uu := u) end.
  replace (ltb (enorm 1 uu) tol) with false; [apply (IH x' _ x Hx' Hx)|].
  symmetry. apply R_ltb_false. apply Rle_trans with (1 := Ht).
  unfold enorm, sumsq. rewrite sumR_S. change (sumn 0 (fun i => uu i * uu i)) with 0.
  rewrite Rplus_0_l. fold (Rsqr (uu 0%nat)). rewrite sqrt_Rsqr_abs. subst uu. cbv beta. cbn [sub R_ops].
  set (z := g0 0%nat). change (@delta R R_ops 0 0) with 1.
  replace (z - (z - (if R_eqb (2 * z * 1 - 1) 0 then 1 else (0 + (z * z + 1) * 1 - z) / (2 * z * 1 - 1))))
    with (if R_eqb (2 * z * 1 - 1) 0 then 1 else (z * z + 1 - z) / (2 * z - 1)).
  2:{ destruct (R_eqb (2 * z * 1 - 1) 0) eqn:E; [ring|]. apply R_eqb_false in E. field. lra. }
  destruct (R_eqb (2 * z * 1 - 1) 0) eqn:E; [rewrite Rabs_right; lra|]. apply R_eqb_false in E.
  unfold Rdiv at 2. rewrite Rabs_mult, Rabs_inv. 
  assert (0 < Rabs (2 * z - 1)) by (apply Rabs_pos_lt; lra).
  apply (Rmult_le_reg_r (Rabs (2 * z - 1))); [assumption|]. rewrite Rmult_assoc, Rinv_l by lra. rewrite Rmult_1_r.
  rewrite (Rabs_right (z * z + 1 - z)) by nra. pose proof (Rle_0_sqr z); pose proof (Rle_0_sqr (z - 1)); unfold Rsqr in *. unfold Rabs. destruct (Rcase_abs (2 * z - 1)); lra.
Qed.

Lemma solver_ok_1 (A : matrix R) a : is_mat A 1 1 (fun _ _ => a) -> a <> 0 -> solver_ok A 1 (fun _ _ => a).
Proof.
  intros HA Ha b g Hb. destruct (solve_1x1 A b _ g HA Hb) as (w & E & Hw). exists w. eexists. split; [exact E|]. split; [exact Hw|].
  rewrite (proj2 (R_eqb_false a 0) Ha). unfold mv. split.
  - intros i Hi. replace i with 0%nat by lia. rewrite sumR_S. simpl. field. exact Ha.
  - intros y Hy i Hi. replace i with 0%nat by lia. specialize (Hy 0%nat ltac:(lia)). rewrite sumR_S in Hy.
    simpl in Hy. rewrite <- Hy. field. exact Ha.
Qed.
