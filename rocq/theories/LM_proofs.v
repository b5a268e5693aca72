(** Levenberg-Marquardt, the pseudo inverse and Gauss-Newton. *)
From Coq Require Import Arith List Bool Lia Reals Lra.
From Verif Require Import Outcome Scalar RealOps Matrix_model Transpose_model Vector_model LU_model Decomp_model Ode_model Optim_model
  Matrix_spec LU_spec Decomp_spec Optim_spec Ode_spec Matrix_proofs Transpose_proofs Vector_proofs Sums Subst_proofs LUProps_proofs Norm_proofs Ode_proofs OdeOrder_proofs OdeConseq_proofs
  Ortho_proofs Newton_proofs Descent_proofs.
Import ListNotations.
Local Open Scope R_scope.

Notation damped := jtj_damped.

(** d solves (J^T J + mu^2 I) d = - J^T f: then |f|^2 - |f + J d|^2 = |J d|^2 + 2 mu^2 |d|^2. *)
Lemma lm_denominator p n (J : nat -> nat -> R) (f d : nat -> R) mu :
  (forall i, (i < n)%nat -> mv n (damped p J mu) d i = - sumn p (fun l => J l i * f l)) ->
  sumsq p f - sumsq p (fun l => f l + mv n J d l) = sumsq p (mv n J d) + 2 * (mu * mu) * sumsq n d.
Proof.
  intros H.
  assert (E : sumn n (fun i => d i * mv n (damped p J mu) d i) = sumsq p (mv n J d) + mu * mu * sumsq n d).
  { rewrite (sumR_ext n _ (fun i => sumn p (fun l => d i * J l i * mv n J d l) + mu * mu * (d i * d i))).
    - rewrite sumR_add, sumR_mul_l. f_equal. rewrite sumR_swap. unfold sumsq. apply sumR_ext. intros l Hl.
      rewrite sumR_mul_r. f_equal. unfold mv. apply sumR_ext. intros; ring.
    - intros i Hi. unfold mv, jtj_damped.
      rewrite (sumR_ext n _ (fun k => sumn p (fun l => J l i * J l k) * d k + mu * mu * (delta i k * d k))) by (intros; ring).
      rewrite sumR_add, sumR_mul_l. replace (sumn n (fun k => delta i k * d k)) with (d i) by (symmetry; exact (sumn_delta_l R_RingLaws n i d Hi)).
      rewrite Rmult_plus_distr_l. f_equal; [|ring].
      rewrite <- sumR_mul_l. rewrite (sumR_ext n _ (fun k => sumn p (fun l => d i * J l i * (J l k * d k)))).
      + rewrite sumR_swap. apply sumR_ext. intros l Hl. rewrite <- sumR_mul_l. reflexivity.
      + intros k Hk. rewrite <- sumR_mul_r, <- sumR_mul_l. apply sumR_ext. intros; ring. }
  assert (E2 : sumn n (fun i => d i * mv n (damped p J mu) d i) = - sumn p (fun l => f l * mv n J d l)).
  { rewrite (sumR_ext n _ (fun i => sumn p (fun l => (-1) * (f l * (J l i * d i))))).
    - rewrite sumR_swap. rewrite (sumR_ext p _ (fun l => (-1) * (f l * mv n J d l))); [rewrite sumR_mul_l; ring|].
      intros l Hl. rewrite sumR_mul_l. f_equal. rewrite sumR_mul_l. reflexivity.
    - intros i Hi. rewrite H by assumption. replace (d i * - sumn p (fun l => J l i * f l)) with (- d i * sumn p (fun l => J l i * f l)) by ring.
      rewrite <- sumR_mul_l. apply sumR_ext. intros; ring. }
  assert (E3 : sumsq p (fun l => f l + mv n J d l) = sumsq p f + 2 * sumn p (fun l => f l * mv n J d l) + sumsq p (mv n J d)).
  { unfold sumsq. rewrite <- sumR_mul_l, <- !sumR_add. apply sumR_ext. intros; ring. }
  lra.
Qed.

Section LM.
Variables (func : vector R -> outcome (vector R)) (jac : vector R -> outcome (matrix R)) (n p : nat).
Variables (F : (nat -> R) -> nat -> R) (J : (nat -> R) -> nat -> nat -> R).
Hypothesis HF : computes func n p F.
Hypothesis HJ : computes_mat jac n p n J.
Hypothesis Hn : (0 < n)%nat.
Hypothesis Hp : (0 < p)%nat.
Hypothesis Hshape : p = n \/ p = 1%nat \/ n = 1%nat.
Hypothesis HS : forall g mu A, 0 < mu -> is_mat A n n (damped p (J g) mu) -> solver_ok A n (damped p (J g) mu).

Lemma lm_trial_spec x g mu : is_col x n g -> 0 < mu ->
  exists d D, lm_trial func jac x mu = Ret (d, (sumsq p (F g) - sumsq p (F (fun i => g i + D i))) / (sumsq p (mv n (J g) D) + 2 * (mu * mu) * sumsq n D)) /\
    is_col d n D /\ (forall i, (i < n)%nat -> mv n (damped p (J g) mu) D i = - sumn p (fun l => J g l i * F g l)).
Proof.
  intros Hx Hmu. unfold lm_trial. destruct (HJ x g Hx) as (M & E & HM). rewrite E. cbn [bind].
  destruct (mtranspose_good M p n _ Hp Hn Hshape HM) as (Mt & E1 & HMt). rewrite E1. cbn [bind].
  destruct (HF x g Hx) as (f & E2 & Hf). rewrite E2. cbn [bind].
  destruct (mmul_vec_spec Mt n p _ f _ HMt Hf) as (jf & E3 & Hjf). rewrite E3. cbn [bind].
  destruct (mmul_spec Mt M n p n _ _ HMt HM) as (JJ & E4 & HJJ). rewrite E4. cbn [bind].
  rewrite (is_mat_cols _ _ _ _ HM). destruct (mone_spec (T:=R) n) as (I & E5 & HI). rewrite E5. cbn [bind].
  destruct (madd_spec JJ _ n n _ _ HJJ (mapply_spec (fun z => z * mu) _ n n _ (mapply_spec (fun z => z * mu) I n n _ HI))) as (Lf & E6 & HLf).
  change (mmul_scalar (mmul_scalar I mu) mu) with (mapply (fun z => z * mu) (mapply (fun z => z * mu) I)). rewrite E6. cbn [bind].
  assert (HL : is_mat Lf n n (damped p (J g) mu)).
  { revert HLf. apply is_mat_ext. intros i j Hi Hj. unfold jtj_damped, mulf. cbn [add mul R_ops]. ring. }
  destruct (HS g mu Lf Hmu HL (vneg jf) _ (vneg_col jf n _ Hjf)) as (d & D & E7 & Hd & Heq & _). rewrite E7. cbn [bind runwrap].
  destruct (vadd_col x d n g D Hx Hd) as (x1 & E8 & Hx1). rewrite E8. cbn [bind].
  destruct (HF x1 _ Hx1) as (f1 & E9 & Hf1). rewrite E9. cbn [bind].
  rewrite (vdotp_spec f f p _ _ Hp Hf Hf). cbn [bind]. rewrite (vdotp_spec f1 f1 p _ _ Hp Hf1 Hf1). cbn [bind].
  destruct (mmul_vec_spec M p n _ d D HM Hd) as (jd & E10 & Hjd). rewrite E10. cbn [bind].
  destruct (vadd_col f jd p _ _ Hf Hjd) as (tm & E11 & Htm). rewrite E11. cbn [bind].
  rewrite (vdotp_spec tm tm p _ _ Hp Htm Htm). cbn [bind].
  assert (Heq' : forall i, (i < n)%nat -> mv n (damped p (J g) mu) D i = - sumn p (fun l => J g l i * F g l)) by exact Heq.
  exists d, D. split; [|split; [exact Hd|exact Heq']].
  do 2 f_equal. rewrite <- (lm_denominator p n (J g) (F g) D mu Heq'). reflexivity.
Qed.

(** What an accepted step satisfies. *)
Definition lm_step beta_0 g mu D : Prop :=
  (forall i, (i < n)%nat -> mv n (damped p (J g) mu) D i = - sumn p (fun l => J g l i * F g l)) /\
  sumsq p (F (fun i => g i + D i)) + beta_0 * (sumsq p (mv n (J g) D) + 2 * (mu * mu) * sumsq n D) <= sumsq p (F g).

Lemma lm_search_spec beta_0 beta_1 : forall fuel x g mu, is_col x n g -> 0 < mu ->
  lm_search fuel beta_0 beta_1 func jac x mu = Ret None \/
  exists d D mu0 mu1, lm_search fuel beta_0 beta_1 func jac x mu = Ret (Some (d, mu1)) /\ is_col d n D /\ 0 < mu0 /\ 0 < mu1 /\ lm_step beta_0 g mu0 D.
Proof.
  induction fuel as [|fuel IH]; intros x g mu Hx Hmu; [left; reflexivity|].
  cbn [lm_search]. destruct (lm_trial_spec x g mu Hx Hmu) as (d & D & E & Hd & Heq). rewrite E. cbn [bind].
  set (num := sumsq p (F g) - sumsq p (F (fun i => g i + D i))). set (den := sumsq p (mv n (J g) D) + 2 * (mu * mu) * sumsq n D).
  destruct (ltb (num / den) beta_0) eqn:El.
  - change (@mul R R_ops mu two) with (mu * 2). apply IH; [exact Hx|lra].
  - right. apply R_ltb_false in El. 
    assert (Hst : lm_step beta_0 g mu D).
    { split; [exact Heq|]. fold den. pose proof (sumsq_nonneg p (mv n (J g) D)) as P1. pose proof (sumsq_nonneg n D) as P2.
      destruct (Req_dec (sumsq n D) 0) as [H0|H0].
      - assert (HD0 := proj1 (sumsq_zero n D) H0).
        assert (den = 0).
        { unfold den. rewrite H0. replace (sumsq p (mv n (J g) D)) with 0; [ring|]. symmetry. apply sumsq_zero. intros l Hl. unfold mv.
          rewrite (sumR_ext n _ (fun _ => 0)); [apply sumR_zero|]. intros i Hi. rewrite HD0 by assumption. ring. }
        rewrite H. replace (sumsq p (F (fun i => g i + D i))) with (sumsq p (F g)); [lra|]. unfold sumsq. apply sumR_ext. intros l Hl.
        rewrite (computes_ext func n p F (fun i => g i + D i) g l HF); [reflexivity|intros k Hk; rewrite HD0 by assumption; ring|exact Hl].
      - assert (0 < mu * mu) by (apply Rmult_lt_0_compat; assumption).
        assert (0 < mu * mu * sumsq n D) by (apply Rmult_lt_0_compat; lra).
        assert (Hden : 0 < den) by (unfold den; lra).
        apply (Rmult_le_compat_r den) in El; [|lra]. unfold Rdiv in El. rewrite Rmult_assoc, Rinv_l in El by lra. unfold num in El. lra. }
    destruct (ltb beta_1 (num / den)); [exists d, D, mu, (mu / 2)|exists d, D, mu, mu]; (split; [reflexivity|]); (split; [exact Hd|]); (split; [exact Hmu|]); (split; [lra|exact Hst]).
Qed.

Lemma lm_loop_spec beta_0 beta_1 fuel : forall iters x g mu, is_col x n g -> 0 < mu ->
  exists r, lm_loop iters fuel beta_0 beta_1 func jac x mu = Ret r /\
  match r with
  | None => True
  | Some w => exists X D M, X 0%nat = g /\ is_col w n (X iters) /\
      forall k, (k < iters)%nat -> 0 < M k /\ X (S k) = (fun i => X k i + D k i) /\ lm_step beta_0 (X k) (M k) (D k)
  end.
Proof.
  induction iters as [|iters IH]; intros x g mu Hx Hmu.
  - exists (Some x). split; [reflexivity|]. exists (fun _ => g), (fun _ => g), (fun _ => 0). split; [reflexivity|]. split; [exact Hx|intros; lia].
  - cbn [lm_loop]. destruct (lm_search_spec beta_0 beta_1 fuel x g mu Hx Hmu) as [E|(d & D & mu0 & mu1 & E & Hd & H0 & H1 & Hst)]; rewrite E; cbn [bind].
    + exists None. split; [reflexivity|exact I].
    + destruct (vadd_col x d n g D Hx Hd) as (x1 & E8 & Hx1). rewrite E8. cbn [bind].
      destruct (IH x1 _ mu1 Hx1 H1) as (r & Er & Hr). exists r. split; [exact Er|]. destruct r as [w|]; [|exact I].
      destruct Hr as (X & DD & M & HX0 & Hw & Hk).
      exists (fun k => match k with O => g | S k => X k end), (fun k => match k with O => D | S k => DD k end), (fun k => match k with O => mu0 | S k => M k end).
      split; [reflexivity|]. split; [exact Hw|]. intros [|k] Hlt; [|apply Hk; lia]. split; [exact H0|]. split; [exact HX0|exact Hst].
Qed.
End LM.

Lemma damped_1_pos p (J : nat -> nat -> R) mu : 0 < mu -> 0 < damped p J mu 0 0.
Proof.
  intros H. unfold jtj_damped. change (@delta R _ 0 0) with 1. pose proof (sumsq_nonneg p (fun l => J l 0%nat)) as P1. unfold sumsq in P1.
  assert (0 < mu * mu) by (apply Rmult_lt_0_compat; assumption). lra.
Qed.

(** One unknown: the system always has the solution. *)
Lemma damped_1_solver p (J : nat -> nat -> R) mu A : 0 < mu -> is_mat A 1 1 (damped p J mu) -> solver_ok A 1 (damped p J mu).
Proof.
  intros Hmu HA. pose proof (damped_1_pos p J mu Hmu) as Hpos. set (a := damped p J mu 0%nat 0%nat) in *.
  assert (HA' : is_mat A 1 1 (fun _ _ => a)).
  { revert HA. apply is_mat_ext. intros i j Hi Hj. replace i with 0%nat by lia. replace j with 0%nat by lia. reflexivity. }
  pose proof (solver_ok_1 A a HA' ltac:(lra)) as H. intros b g Hb. destruct (H b g Hb) as (w & x & E & Hw & H1 & H2).
  assert (Em : forall y i, (i < 1)%nat -> mv 1 (damped p J mu) y i = mv 1 (fun _ _ => a) y i).
  { intros y i Hi. replace i with 0%nat by lia. reflexivity. }
  exists w, x. split; [exact E|]. split; [exact Hw|]. split.
  - intros i Hi. rewrite Em by assumption. apply H1. exact Hi.
  - intros y Hy. apply H2. intros i Hi. rewrite <- Em by assumption. apply Hy. exact Hi.
Qed.

(** ** The pseudo inverse *)
Lemma fsub_mat (M B : matrix R) n p Lf b : is_mat M n n Lf -> is_mat B n p b -> lower n n Lf -> (forall k, (k < n)%nat -> Lf k k <> 0) ->
  exists X x, subst_forward_mat M B = Ret X /\ is_mat X n p x /\ feq n p (mulf n Lf x) b.
Proof.
  intros HM HB Hl Hz. destruct (subst_forward_mat_spec M n Lf B p b HM HB) as (w & x & E & Hw & S).
  exists w, x. split; [exact E|]. split; [exact Hw|]. intros r c Hr Hc.
  apply (proj1 (lower_sys_mul R_FieldLaws n Lf (fun l => x l c) (fun l => b l c) r Hl Hr)).
  apply (fwdm_sol_eq R_FieldLaws n p Lf b); auto.
Qed.
Lemma bsub_mat (M B : matrix R) n p Uf b : is_mat M n n Uf -> is_mat B n p b -> upper n n Uf -> (forall k, (k < n)%nat -> Uf k k <> 0) ->
  exists X x, subst_backward_mat M B = Ret X /\ is_mat X n p x /\ feq n p (mulf n Uf x) b.
Proof.
  intros HM HB Hl Hz. destruct (subst_backward_mat_spec M n Uf B p b HM HB) as (w & x & E & Hw & S).
  exists w, x. split; [exact E|]. split; [exact Hw|]. intros r c Hr Hc.
  apply (proj1 (upper_sys_mul R_FieldLaws n Uf (fun l => x l c) (fun l => b l c) r Hl Hr)).
  apply (bwdm_sol_eq R_FieldLaws n p Uf b); auto.
Qed.

Lemma feq_trans {T} m n (f g h : nat -> nat -> T) : feq m n f g -> feq m n g h -> feq m n f h.
Proof. intros H1 H2 i j Hi Hj. rewrite H1 by assumption. apply H2; assumption. Qed.
Lemma feq_sym {T} m n (f g : nat -> nat -> T) : feq m n f g -> feq m n g f.
Proof. intros H i j Hi Hj. symmetry. apply H; assumption. Qed.
Lemma feq_mulf m k n (f f' g g' : nat -> nat -> R) : feq m k f f' -> feq k n g g' -> feq m n (mulf k f g) (mulf k f' g').
Proof. intros H1 H2 i j Hi Hj. unfold mulf. apply sumR_ext. intros l Hl. rewrite H1, H2 by assumption. reflexivity. Qed.
Lemma feq_assoc m k l n (f g h : nat -> nat -> R) : feq m n (mulf l (mulf k f g) h) (mulf k f (mulf l g h)).
Proof. intros i j _ _. exact (mulf_assoc R_RingLaws k l f g h i j). Qed.

Lemma mpinv_square (A : matrix R) n a Q Rm fr : is_mat A n n a -> (0 < n)%nat -> dec_qr A = Ret (Q, Rm) -> is_mat Rm n n fr ->
  (forall k, (k < n)%nat -> fr k k <> 0) ->
  exists P pf, mpinv A = Ret P /\ is_mat P n n pf /\ feq n n (mulf n pf a) delta /\ feq n n (mulf n a pf) delta.
Proof.
  intros HA Hn EQ HR Hd.
  destruct (dec_qr_spec A n n a HA (le_n n) Hn) as (Q' & R' & fq & fr' & E & HQ & HR' & (Ho1 & Ho2) & Hprod & Hup & _).
  rewrite EQ in E. injection E as <- <-.
  assert (Hfr : forall i j, (i < n)%nat -> (j < n)%nat -> fr' i j = fr i j) by (intros i j Hi Hj; exact (is_mat_entry_unique Rm n n _ _ i j HR' HR Hi Hj)).
  assert (Hupper : upper n n fr).
  { intros i j Hi Hj Hij. rewrite <- Hfr by lia. apply Hup; [lia| |lia]. rewrite Hfr by lia. apply Hd. lia. }
  assert (HA2 : feq n n (mulf n fq fr) a).
  { eapply feq_trans; [|exact Hprod]. apply feq_mulf; [intros i j _ _; reflexivity|]. intros i j Hi Hj. symmetry. apply Hfr; assumption. }
  unfold mpinv. rewrite EQ. cbn [bind snd].
  destruct (mtranspose_good Rm n n fr Hn Hn (or_introl eq_refl) HR) as (Rt & E1 & HRt). rewrite E1. cbn [bind].
  destruct (mtranspose_good A n n a Hn Hn (or_introl eq_refl) HA) as (At & E2 & HAt). rewrite E2. cbn [bind].
  destruct (fsub_mat Rt At n n _ _ HRt HAt) as (Y & y & E3 & HY & Hy).
  { intros i j Hi Hj Hij. apply Hupper; assumption. }
  { intros k Hk. apply Hd. exact Hk. }
  rewrite E3. cbn [bind].
  destruct (bsub_mat Rm Y n n _ _ HR HY Hupper Hd) as (P & pf & E4 & HP & Hpf). rewrite E4.
  exists P, pf. split; [reflexivity|]. split; [exact HP|].
  assert (Hyq : feq n n y (trf fq)).
  { intros i j Hi Hj.
    apply (lower_sys_unique R_FieldLaws n (trf fr) (fun l => y l j) (fun l => trf fq l j) (fun l => a j l)); [exact Hd| | |exact Hi].
    - intros k Hk. apply (lower_sys_mul R_FieldLaws n (trf fr)); [intros u v Hu Hv Huv; apply Hupper; assumption|exact Hk|].
      exact (Hy k j Hk Hj).
    - intros k Hk. apply (lower_sys_mul R_FieldLaws n (trf fr)); [intros u v Hu Hv Huv; apply Hupper; assumption|exact Hk|].
      rewrite <- (HA2 j k Hj Hk). unfold mvf, mulf, trf. apply sumR_ext. intros l Hl. cbn [mul R_ops]. ring. }
  assert (HRP : feq n n (mulf n fr pf) (trf fq)) by (eapply feq_trans; [exact Hpf|exact Hyq]).
  split.
  - assert (Hz : feq n n (mulf n fr (mulf n pf a)) fr).
    { eapply feq_trans; [apply feq_sym; apply feq_assoc|].
      eapply feq_trans; [apply feq_mulf; [exact HRP|apply feq_sym; exact HA2]|].
      eapply feq_trans; [apply feq_sym; apply feq_assoc|].
      eapply feq_trans; [apply feq_mulf; [exact Ho2|intros i j _ _; reflexivity]|].
      intros i j Hi Hj. exact (mulf_id_l R_RingLaws n fr i j Hi). }
    intros i j Hi Hj.
    apply (upper_sys_unique R_FieldLaws n fr (fun l => mulf n pf a l j) (fun l => delta l j) (fun l => fr l j)); [exact Hd| | |exact Hi].
    + intros k Hk. apply (upper_sys_mul R_FieldLaws n fr); [exact Hupper|exact Hk|]. exact (Hz k j Hk Hj).
    + intros k Hk. apply (upper_sys_mul R_FieldLaws n fr); [exact Hupper|exact Hk|]. exact (mulf_id_r R_RingLaws n fr k j Hj).
  - eapply feq_trans; [apply feq_mulf; [apply feq_sym; exact HA2|intros i j _ _; reflexivity]|].
    eapply feq_trans; [apply feq_assoc|].
    eapply feq_trans; [apply feq_mulf; [intros i j _ _; reflexivity|exact HRP]|]. exact Ho1.
Qed.

(** One column. *)
Lemma mpinv_col (A : matrix R) m a : is_mat A m 1 a -> (0 < m)%nat -> a 0%nat 0%nat <> 0 ->
  exists P, mpinv A = Ret P /\ is_mat P 1 m (fun _ i => a i 0%nat / sumsq m (fun l => a l 0%nat)).
Proof.
  intros HA Hm H0.
  destruct (dec_qr_spec A m 1 a HA ltac:(lia) Hm) as (Q & Rm & fq & fr & E & HQ & HR & (Ho1 & Ho2) & Hprod & Hup & Hnz).
  specialize (Hnz H0). assert (Hz : forall i, (0 < i < m)%nat -> fr i 0%nat = 0) by (intros i Hi; apply Hup; [lia|exact Hnz|exact Hi]).
  set (d := fr 0%nat 0%nat) in *.
  assert (Ha : forall i, (i < m)%nat -> a i 0%nat = fq i 0%nat * d).
  { intros i Hi. rewrite <- (Hprod i 0%nat Hi ltac:(lia)). unfold mulf. apply (sumn_single R_RingLaws m 0 (fun k => fq i k * fr k 0%nat) Hm).
    intros k Hk Hne. rewrite Hz by lia. simpl. ring. }
  assert (Hs : sumsq m (fun l => a l 0%nat) = d * d).
  { unfold sumsq. rewrite (sumR_ext m _ (fun l => fq l 0%nat * fq l 0%nat * (d * d))) by (intros l Hl; rewrite Ha by assumption; ring).
    rewrite sumR_mul_r. replace (sumn m (fun l => fq l 0%nat * fq l 0%nat)) with 1; [ring|]. symmetry. exact (Ho2 0%nat 0%nat Hm Hm). }
  rewrite Hs. unfold mpinv. rewrite E. cbn [bind snd].
  destruct (mtranspose_good Rm m 1 fr Hm ltac:(lia) ltac:(lia) HR) as (Rt & E1 & HRt). rewrite E1. cbn [bind].
  destruct (mtranspose_good A m 1 a Hm ltac:(lia) ltac:(lia) HA) as (At & E2 & HAt). rewrite E2. cbn [bind].
  unfold subst_forward_mat. rewrite (is_mat_rows _ _ _ _ HRt), (is_mat_cols _ _ _ _ HRt). replace (Nat.min 1 m) with 1%nat by lia.
  unfold for_loop at 1. cbn [Nat.sub for_from]. rewrite for_loop_nil by lia. cbn [bind].
  rewrite (is_mat_get Rt 1 m _ 0 0 HRt ltac:(lia) ltac:(lia)). cbn [bind].
  destruct (row_div_spec At 1 m _ 0 d HAt ltac:(lia)) as (X & E3 & HX). fold d. rewrite E3. cbn [bind].
  unfold subst_backward_mat. rewrite (is_mat_rows _ _ _ _ HR), (is_mat_cols _ _ _ _ HR). replace (Nat.min m 1) with 1%nat by lia.
  unfold for_loop_rev at 1. cbn [Nat.sub for_down Nat.add]. rewrite for_loop_rev_nil by lia. cbn [bind].
  rewrite (is_mat_get Rm m 1 _ 0 0 HR ltac:(lia) ltac:(lia)). cbn [bind].
  destruct (row_div_spec X 1 m _ 0 d HX ltac:(lia)) as (P & E4 & HP). fold d. rewrite E4. cbn [bind].
  exists P. split; [reflexivity|]. revert HP. apply is_mat_ext. intros i j Hi Hj. replace i with 0%nat by lia.
  unfold rupd. cbn [Nat.eqb mul div one R_ops]. field. exact Hnz.
Qed.

(** ** Gauss-Newton *)
Section GN.
Variables (func : vector R -> outcome (vector R)) (jac : vector R -> outcome (matrix R)) (n p : nat).
Variables (F : (nat -> R) -> nat -> R) (J : (nat -> R) -> nat -> nat -> R).
Hypothesis HF : computes func n p F.
Hypothesis HJ : computes_mat jac n p n J.

(** [delta] is what a pseudo inverse of the right shape gives. *)
Lemma gn_min_spec (good : (nat -> R) -> (nat -> nat -> R) -> Prop) :
  (forall A g, is_mat A p n (J g) -> exists P pf, mpinv A = Ret P /\ is_mat P n p pf /\ good g pf) ->
  forall iters x0 g0, is_col x0 n g0 -> exists w X, gn_min iters func jac x0 = Ret w /\ is_col w n (X iters) /\ X 0%nat = g0 /\
    forall k, (k < iters)%nat -> exists pf, good (X k) pf /\ X (S k) = (fun i => X k i - mv p pf (F (X k)) i).
Proof.
  intros HP. induction iters as [|iters IH]; intros x0 g0 Hx.
  - exists x0, (fun _ => g0). split; [reflexivity|]. split; [exact Hx|]. split; [reflexivity|intros; lia].
  - cbn [gn_min]. destruct (HJ x0 g0 Hx) as (A & E1 & HA). rewrite E1. cbn [bind].
    destruct (HF x0 g0 Hx) as (f & E2 & Hf). rewrite E2. cbn [bind].
    destruct (HP A g0 HA) as (P & pf & E3 & HPm & Hgood). rewrite E3. cbn [bind].
    destruct (mmul_vec_spec P n p _ f _ HPm Hf) as (dl & E4 & Hdl). rewrite E4. cbn [bind].
    destruct (vsub_col x0 dl n _ _ Hx Hdl) as (x1 & E5 & Hx1). rewrite E5. cbn [bind].
    destruct (IH x1 _ Hx1) as (w & X & Ew & Hw & HX0 & Hk).
    exists w, (fun k => match k with O => g0 | S k => X k end). split; [exact Ew|]. split; [exact Hw|]. split; [reflexivity|].
    intros [|k] Hlt; [exists pf; split; [exact Hgood|exact HX0]|apply Hk; lia].
Qed.

(** Square systems: a Newton step each time. *)
Lemma gn_square : p = n -> (0 < n)%nat ->
  (forall A g, is_mat A n n (J g) -> exists Q Rm fr, dec_qr A = Ret (Q, Rm) /\ is_mat Rm n n fr /\ forall k, (k < n)%nat -> fr k k <> 0) ->
  forall iters x0 g0, is_col x0 n g0 -> exists w X B, gn_min iters func jac x0 = Ret w /\ is_col w n (X iters) /\ newton_run n F J g0 iters X B.
Proof.
  intros Hpn Hn HQ iters x0 g0 Hx.
  destruct (gn_min_spec (fun g pf => feq n n (mulf n (J g) pf) delta)) with (iters := iters) (x0 := x0) (g0 := g0) as (w & X & Ew & Hw & HX0 & Hk).
  - subst p. intros A g HA. destruct (HQ A g HA) as (Q & Rm & fr & E & HR & Hd).
    destruct (mpinv_square A n _ Q Rm fr HA Hn E HR Hd) as (P & pf & E1 & HP & _ & H2). exists P, pf. auto.
  - exact Hx.
  - subst p. exists w, X, (fun k i => X k i - X (S k) i). split; [exact Ew|]. split; [exact Hw|]. split; [exact HX0|].
    intros j Hj. destruct (Hk j Hj) as (pf & Hg & Hs). split; [intros i Hi; ring|]. intros i Hi.
    transitivity (mv n (mulf n (J (X j)) pf) (F (X j)) i).
    + unfold mv. rewrite (sumR_ext n _ (fun k => sumn n (fun l => J (X j) i k * pf k l * F (X j) l))).
      * rewrite sumR_swap. apply sumR_ext. intros l Hl. unfold mulf. rewrite <- sumR_mul_r. reflexivity.
      * intros k Hkk. rewrite Hs. unfold mv. replace (X j k - (X j k - sumn n (fun l => pf k l * F (X j) l))) with (sumn n (fun l => pf k l * F (X j) l)) by ring.
        rewrite <- sumR_mul_l. apply sumR_ext. intros; ring.
    + unfold mv. rewrite (sumR_ext n _ (fun k => delta i k * F (X j) k)) by (intros k Hkk; rewrite Hg by assumption; reflexivity).
      exact (sumn_delta_l R_RingLaws n i (F (X j)) Hi).
Qed.

(** One unknown: the least-squares step. *)
Lemma gn_one : n = 1%nat -> (0 < p)%nat -> (forall g, J g 0%nat 0%nat <> 0) ->
  forall iters x0 g0, is_col x0 n g0 -> exists w X, gn_min iters func jac x0 = Ret w /\ is_col w n (X iters) /\ X 0%nat = g0 /\
    forall k, (k < iters)%nat -> X (S k) 0%nat = X k 0%nat - dot p (fun l => J (X k) l 0%nat) (F (X k)) / sumsq p (fun l => J (X k) l 0%nat).
Proof.
  intros Hn1 Hp Hnz iters x0 g0 Hx.
  destruct (gn_min_spec (fun g pf => forall i, (i < p)%nat -> pf 0%nat i = J g i 0%nat / sumsq p (fun l => J g l 0%nat))) with (iters := iters) (x0 := x0) (g0 := g0) as (w & X & Ew & Hw & HX0 & Hk).
  - intros A g HA. rewrite Hn1 in *. destruct (mpinv_col A p _ HA Hp (Hnz g)) as (P & E1 & HP). eexists P, _. split; [exact E1|]. split; [exact HP|]. reflexivity.
  - exact Hx.
  - exists w, X. split; [exact Ew|]. split; [exact Hw|]. split; [exact HX0|]. intros k Hlt. destruct (Hk k Hlt) as (pf & Hg & Hs). rewrite Hs.
    f_equal. unfold mv, dot, Rdiv. rewrite <- sumR_mul_r. apply sumR_ext. intros l Hl. rewrite Hg by assumption. unfold Rdiv. ring.
Qed.
End GN.
