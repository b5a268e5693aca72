(** Which loops end in binary64. *)
From Coq Require Import Arith List Bool Lia ZArith Reals Lra SpecFloat.
From Flocq Require Import Core IEEE754.BinarySingleNaN.
From Verif Require Import Outcome Scalar RealOps Elem_model Int_model Matrix_model Transpose_model Vector_model LU_model Decomp_model Ode_model Special_model Optim_model
  Matrix_spec F64_spec Optim_spec Ode_spec Matrix_proofs Vector_proofs Sums Ode_proofs Descent_proofs F64Flocq F64Err_proofs F64Grid_proofs.
Import ListNotations.

(** ** Arithmetic with zeros, NaN and infinities *)
Definition fzero (x : f64) : Prop := exists s, x = S754_zero s.

Lemma feqb_refl (x : f64) : x <> S754_nan -> eqb x x = true.
Proof.
  intros H. cbn [eqb F64_ops]. unfold SFeqb, SFcompare. destruct x as [s|s| |s m e]; try destruct s; try reflexivity; try contradiction.
  - rewrite Z.compare_refl, Pos.compare_cont_refl. reflexivity.
  - rewrite Z.compare_refl, Pos.compare_cont_refl. reflexivity.
Qed.
Lemma fmul_zero_r (x z : f64) : ffin x = true -> fzero z -> fzero (mul x z).
Proof. intros H (s & ->). destruct x as [s'|s'| |s' m e]; try discriminate H; eexists; reflexivity. Qed.
Lemma fmul_zero_l (x z : f64) : ffin x = true -> fzero z -> fzero (mul z x).
Proof. intros H (s & ->). destruct x as [s'|s'| |s' m e]; try discriminate H; eexists; reflexivity. Qed.
Lemma fadd_zero_zero (x z : f64) : fzero x -> fzero z -> fzero (add x z).
Proof. intros (s & ->) (s' & ->). destruct s, s'; eexists; reflexivity. Qed.
Lemma fadd_zero_eq (x z : f64) : x <> S754_nan -> fzero z -> eqb x (add x z) = true.
Proof.
  intros H (s & ->). destruct x as [s'|s'| |s' m e]; try contradiction.
  - destruct s, s'; reflexivity.
  - destruct s'; reflexivity.
  - change (add (S754_finite s' m e) (S754_zero s)) with (S754_finite s' m e). apply feqb_refl. discriminate.
Qed.
Lemma feqb_eq_or_zero (x y : f64) : eqb x y = true -> x = y \/ fzero x /\ fzero y.
Proof.
  intros H. cbn [eqb F64_ops] in H. unfold SFeqb, SFcompare in H.
  destruct x as [s|s| |s m e], y as [t|t| |t m' e']; try discriminate H; try (destruct s; discriminate H); try (destruct t; discriminate H); try (destruct s, t; discriminate H).
  - right. split; eexists; reflexivity.
  - left. destruct s, t; try discriminate H; reflexivity.
  - left. destruct s, t; try discriminate H.
    + destruct (Z.compare_spec e e') as [->|?|?]; try discriminate H. destruct (Pos.compare_cont Eq m m') eqn:Em; try discriminate H.
      apply Pos.compare_eq in Em. subst. reflexivity.
    + destruct (Z.compare_spec e e') as [->|?|?]; try discriminate H. destruct (Pos.compare_cont Eq m m') eqn:Em; try discriminate H.
      apply Pos.compare_eq in Em. subst. reflexivity.
Qed.
Lemma fleb_refl (x : f64) : x <> S754_nan -> leb x x = true.
Proof.
  intros H. pose proof (feqb_refl x H) as He. cbn [eqb leb F64_ops] in *. unfold SFeqb, SFleb in *.
  destruct (SFcompare _ _) as [[]|]; try discriminate He; reflexivity.
Qed.
Lemma fsub_zero_leb (x y z : f64) : eqb x y = true -> fzero z -> leb y (sub x z) = true.
Proof.
  intros H (s & ->). destruct (feqb_eq_or_zero x y H) as [<-|((u & ->) & (u' & ->))].
  - destruct x as [t|t| |t k e]; [destruct s, t; reflexivity|destruct t; reflexivity|discriminate H|].
    change (sub (S754_finite t k e) (S754_zero s)) with (S754_finite t k e). apply fleb_refl. discriminate.
  - destruct s, u, u'; reflexivity.
Qed.
Lemma fsum_zero n (f : nat -> f64) : (forall i, (i < n)%nat -> fzero (f i)) -> fzero (sumn n f).
Proof.
  induction n as [|n IH]; intros H; [eexists; reflexivity|]. cbn [sumn]. apply fadd_zero_zero; [apply IH; intros; apply H; lia|apply H; lia].
Qed.

Fixpoint halves (k : nat) (a : f64) : f64 := match k with 0%nat => a | S k => halves k (div a (S754_finite false 4503599627370496 (-51))) end.
Lemma halves_zero : halves 1075 one = S754_zero false.
Proof. vm_compute. reflexivity. Qed.

(** ** Line searches *)
Section Search.
Variables (pw : f64 -> f64 -> f64).
#[local] Hint Extern 0 (POps f64) => exact (F64_pops pw) : typeclass_instances.
Variables (func : vector f64 -> outcome (vector f64)) (n m : nat) (F : (nat -> f64) -> nat -> f64).
Hypothesis HF : computes func n m F.
Hypothesis Hm : (0 < m)%nat.
Hypothesis Hn : (0 < n)%nat.

Section Grad.
Variables (sigma : f64) (x v : vector f64) (g d : nat -> f64).
Hypothesis Hx : is_col x n g.
Hypothesis Hv : is_col v n d.

Lemma grad_search_unfold fuel alpha :
  grad_search (S fuel) sigma func x v alpha =
  (if leb (F (fun i => add (g i) (mul (d i) alpha)) 0%nat) (sub (F g 0%nat) (mul sigma (sumn n (fun i => mul (mul (d i) alpha) (d i)))))
   then Ret (Some alpha) else grad_search fuel sigma func x v (div alpha two)).
Proof.
  cbn [grad_search]. pose proof (vmul_scalar_col v n _ alpha Hv) as Hva.
  destruct (vadd_col x _ n g _ Hx Hva) as (r & E & Hr). rewrite E. cbn [bind].
  rewrite (eval0_spec func n m F r _ HF Hm Hr). cbn [bind].
  rewrite (vdotp_spec _ v n _ _ Hn Hva Hv). cbn [bind].
  rewrite (eval0_spec func n m F x g HF Hm Hx). cbn [bind]. reflexivity.
Qed.

Lemma grad_search_nan fuel alpha : F g 0%nat = S754_nan -> grad_search fuel sigma func x v alpha = Ret None.
Proof.
  intros H. revert alpha. induction fuel as [|fuel IH]; intros alpha; [reflexivity|]. rewrite grad_search_unfold, H.
  match goal with |- context [leb ?a ?b] => replace (leb a b) with false end; [apply IH|].
  match goal with |- context [sub S754_nan ?c] => change (sub S754_nan c) with S754_nan end.
  match goal with |- context [leb ?a _] => generalize a end. intros a. destruct a as [s|s| |s k e]; try destruct s; reflexivity.
Qed.

Lemma grad_search_from k : forall alpha fuel, (exists a, grad_search (k + fuel) sigma func x v alpha = Ret (Some a)) \/
  grad_search (k + fuel) sigma func x v alpha = grad_search fuel sigma func x v (halves k alpha).
Proof.
  induction k as [|k IH]; intros alpha fuel; [now right|]. rewrite Nat.add_succ_l, grad_search_unfold.
  destruct (leb _ _); [left; now exists alpha|]. cbn [halves]. apply IH.
Qed.

Hypothesis HE : forall h, (forall i, (i < n)%nat -> eqb (g i) (h i) = true) -> eqb (F g 0%nat) (F h 0%nat) = true.
Hypothesis Hg : forall i, (i < n)%nat -> g i <> S754_nan.
Hypothesis Hd : forall i, (i < n)%nat -> ffin (d i) = true.
Hypothesis Hs : ffin sigma = true.

Lemma grad_search_ends fuel : (1076 <= fuel)%nat -> exists a, grad_search fuel sigma func x v one = Ret (Some a).
Proof.
  intros Hf. replace fuel with (1075 + S (fuel - 1076))%nat by lia.
  destruct (grad_search_from 1075 one (S (fuel - 1076))) as [H|H]; [exact H|]. rewrite H, halves_zero, grad_search_unfold.
  match goal with |- context [leb ?a ?b] => replace (leb a b) with true end; [now eexists|]. symmetry.
  apply fsub_zero_leb.
  - apply HE. intros i Hi. apply fadd_zero_eq; [apply Hg; exact Hi|]. apply fmul_zero_r; [apply Hd; exact Hi|eexists; reflexivity].
  - apply fmul_zero_r; [exact Hs|]. apply fsum_zero. intros i Hi. apply fmul_zero_l; [apply Hd; exact Hi|].
    apply fmul_zero_r; [apply Hd; exact Hi|eexists; reflexivity].
Qed.
End Grad.

Section Newt.
Variables (sigma temp : f64) (x v : vector f64) (g d : nat -> f64).
Hypothesis Hx : is_col x n g.
Hypothesis Hv : is_col v n d.
Let trial alpha := F (fun i => add (g i) (mul (d i) alpha)) 0%nat.

Lemma newton_search_unfold fuel alpha :
  newton_search (S fuel) sigma func x v (F g 0%nat) temp alpha (trial alpha) =
  (if ltb (add (F g 0%nat) (mul temp (mul sigma alpha))) (trial alpha)
   then newton_search fuel sigma func x v (F g 0%nat) temp (div alpha two) (trial (div alpha two)) else Ret (Some alpha)).
Proof.
  cbn [newton_search]. destruct (ltb _ _); [|reflexivity].
  destruct (vadd_col x _ n g _ Hx (vmul_scalar_col v n _ (div alpha two) Hv)) as (r & E & Hr). rewrite E. cbn [bind].
  rewrite (eval0_spec func n m F r _ HF Hm Hr). reflexivity.
Qed.
Lemma newton_search_from k : forall alpha fuel,
  (exists a, newton_search (k + fuel) sigma func x v (F g 0%nat) temp alpha (trial alpha) = Ret (Some a)) \/
  newton_search (k + fuel) sigma func x v (F g 0%nat) temp alpha (trial alpha) =
  newton_search fuel sigma func x v (F g 0%nat) temp (halves k alpha) (trial (halves k alpha)).
Proof.
  induction k as [|k IH]; intros alpha fuel; [now right|]. rewrite Nat.add_succ_l, newton_search_unfold.
  destruct (ltb _ _); [|left; now exists alpha]. cbn [halves]. apply IH.
Qed.

Hypothesis HE : forall h, (forall i, (i < n)%nat -> eqb (g i) (h i) = true) -> F g 0%nat <> S754_nan -> eqb (F g 0%nat) (F h 0%nat) = true.
Hypothesis Hg : forall i, (i < n)%nat -> g i <> S754_nan.
Hypothesis Hd : forall i, (i < n)%nat -> ffin (d i) = true.
Hypothesis Hs : ffin sigma = true.

Lemma fltb_add_zero (a b z : f64) : (a <> S754_nan -> eqb a b = true) -> fzero z \/ z = S754_nan -> ltb (add a z) b = false.
Proof.
  intros H [(s & ->)| ->].
  - destruct a as [t|t| |t k e]; try reflexivity; specialize (H ltac:(discriminate));
      apply feqb_eq_or_zero in H; destruct H as [<-|((u & Hu) & (u' & ->))]; try discriminate Hu.
    + destruct s, t; reflexivity.
    + destruct s, t; reflexivity.
    + destruct t; reflexivity.
    + change (add (S754_finite t k e) (S754_zero s)) with (S754_finite t k e).
      pose proof (feqb_refl (S754_finite t k e) ltac:(discriminate)) as H. cbn [eqb ltb F64_ops] in *. unfold SFeqb, SFltb in *.
      destruct (SFcompare _ _) as [[]|]; try discriminate H; reflexivity.
  - destruct a as [t|t| |t k e]; destruct b as [u|u| |u l f]; reflexivity.
Qed.

Lemma newton_search_ends fuel : (1075 <= fuel)%nat ->
  exists a, newton_search fuel sigma func x v (F g 0%nat) temp one (trial one) = Ret (Some a).
Proof.
  intros Hf. replace fuel with (1075 + (fuel - 1075))%nat by lia.
  destruct (newton_search_from 1075 one (fuel - 1075)) as [H|H]; [exact H|]. rewrite H, halves_zero.
  assert (Hl : ltb (add (F g 0%nat) (mul temp (mul sigma (S754_zero false)))) (trial (S754_zero false)) = false).
  { apply fltb_add_zero.
    - intros HN. apply HE; [|exact HN]. intros i Hi. apply fadd_zero_eq; [apply Hg; exact Hi|]. apply fmul_zero_r; [apply Hd; exact Hi|eexists; reflexivity].
    - destruct (fmul_zero_r sigma (S754_zero false) Hs (ex_intro _ false eq_refl)) as (s & ->).
      destruct temp as [u|u| |u k e]; [left|right|right|left]; try eexists; reflexivity. }
  destruct (fuel - 1075)%nat; cbn [newton_search]; rewrite Hl; now eexists.
Qed.
End Newt.
End Search.

(** ** Whole runs *)
Lemma fneg_fin (x : f64) : ffin x = true -> ffin (neg x) = true.
Proof. destruct x; intros H; try discriminate H; reflexivity. Qed.

Section Run.
Variables (pw : f64 -> f64 -> f64).
#[local] Hint Extern 0 (POps f64) => exact (F64_pops pw) : typeclass_instances.
Variables (func : vector f64 -> outcome (vector f64)) (jac : vector f64 -> outcome (matrix f64)) (n m p : nat).
Variables (F : (nat -> f64) -> nat -> f64) (J : (nat -> f64) -> nat -> nat -> f64).
Hypothesis HF : computes func n m F.
Hypothesis HJ : computes_mat jac n p n J.
Hypothesis Hm : (0 < m)%nat.
Hypothesis Hp : (0 < p)%nat.
Hypothesis Hn : (0 < n)%nat.
Hypothesis HE : forall g h, (forall i, (i < n)%nat -> eqb (g i) (h i) = true) -> F g 0%nat <> S754_nan -> eqb (F g 0%nat) (F h 0%nat) = true.
Variable sigma : f64.
Hypothesis Hs : ffin sigma = true.
Variable fuel : nat.
Hypothesis Hf : (1076 <= fuel)%nat.

Lemma vneg_gen v (f : nat -> f64) : is_col v n f -> is_col (vneg v) n (fun i => neg (f i)).
Proof. intros H. exact (mapply_spec (fun x => neg x) v n 1 _ H). Qed.

Lemma grad_min_f64 : forall iters x0 g0, is_col x0 n g0 ->
  (forall k x g, (k < iters)%nat -> grad_min k fuel sigma func jac x0 = Ret (Some x) -> is_col x n g ->
     F g 0%nat <> S754_nan /\ forall i, (i < n)%nat -> g i <> S754_nan /\ ffin (J g 0%nat i) = true) ->
  exists x g, grad_min iters fuel sigma func jac x0 = Ret (Some x) /\ is_col x n g.
Proof.
  induction iters as [|iters IH]; intros x0 g0 Hx HG; [exists x0, g0; split; [reflexivity|exact Hx]|].
  destruct (HG 0%nat x0 g0 ltac:(lia) eq_refl Hx) as (HN & Hi).
  cbn [grad_min]. destruct (grad_at_spec jac n p J x0 g0 HJ Hp Hn Hx) as (v & Ev & Hv).
  rewrite Ev. cbn [bind].
  destruct (grad_search_ends pw func n m F HF Hm Hn sigma x0 (vneg v) g0 _ Hx (vneg_gen v _ Hv)
    (fun h Hh => HE g0 h Hh HN) (fun i H => proj1 (Hi i H)) (fun i H => fneg_fin _ (proj2 (Hi i H))) Hs fuel Hf) as (a & Ea).
  rewrite Ea. cbn [bind].
  destruct (vadd_col x0 _ n g0 _ Hx (vmul_scalar_col _ n _ a (vneg_gen v _ Hv))) as (x1 & E1 & H1). rewrite E1. cbn [bind].
  apply (IH x1 _ H1). intros k x g Hk E Hxg. apply (HG (S k) x g ltac:(lia)); [|exact Hxg].
  cbn [grad_min]. rewrite Ev. cbn [bind]. rewrite Ea. cbn [bind]. rewrite E1. cbn [bind]. exact E.
Qed.

Lemma newton_min_f64 rho hess : forall iters x0 g0, is_col x0 n g0 ->
  (forall k x g, (k < iters)%nat -> newton_min k fuel sigma rho func jac hess x0 = Ret (Some x) -> is_col x n g ->
     (forall i, (i < n)%nat -> g i <> S754_nan /\ ffin (J g 0%nat i) = true) /\
     exists A, hess x = Ret A /\ forall b, is_col b n (fun i => neg (J g 0%nat i)) ->
       solve_vec A b = Ret Err \/ exists s S, solve_vec A b = Ret (Ok s) /\ is_col s n S /\ forall i, (i < n)%nat -> ffin (S i) = true) ->
  exists x g, newton_min iters fuel sigma rho func jac hess x0 = Ret (Some x) /\ is_col x n g.
Proof.
  induction iters as [|iters IH]; intros x0 g0 Hx HG; [exists x0, g0; split; [reflexivity|exact Hx]|].
  destruct (HG 0%nat x0 g0 ltac:(lia) eq_refl Hx) as (Hi & A & EA & HA).
  destruct (grad_at_spec jac n p J x0 g0 HJ Hp Hn Hx) as (v & Ev & Hv).
  assert (Hd : exists d D, newton_dir rho hess x0 v = Ret d /\ is_col d n D /\ forall i, (i < n)%nat -> ffin (D i) = true).
  { pose proof (vneg_gen v _ Hv) as Hnv. assert (HnF : forall i, (i < n)%nat -> ffin (neg (J g0 0%nat i)) = true) by (intros i H; apply fneg_fin, Hi; exact H).
    unfold newton_dir. rewrite EA. cbn [bind]. destruct (HA _ Hnv) as [E|(s & S & E & HS & HSf)]; rewrite E; cbn [bind].
    - eexists _, _. split; [reflexivity|]. split; [exact Hnv|exact HnF].
    - rewrite (vdotp_spec v v n _ _ Hn Hv Hv), (vdotp_spec v s n _ _ Hn Hv HS). cbn [bind]. destruct (leb _ _).
      + exists s, S. auto.
      + eexists _, _. split; [reflexivity|]. split; [exact Hnv|exact HnF]. }
  destruct Hd as (d & D & Ed & HD & HDf).
  destruct (vadd_col x0 _ n g0 _ Hx (vmul_scalar_col d n _ one HD)) as (r & Er & Hr).
  destruct (newton_search_ends pw func n m F HF Hm Hn sigma (sumn n (fun i => mul (J g0 0%nat i) (D i))) x0 d g0 D Hx HD
    (HE g0) (fun i H => proj1 (Hi i H)) HDf Hs fuel ltac:(lia)) as (a & Ea).
  destruct (vadd_col x0 _ n g0 _ Hx (vmul_scalar_col d n _ a HD)) as (x1 & E1 & H1).
  assert (Hstep : forall k, newton_min (S k) fuel sigma rho func jac hess x0 = newton_min k fuel sigma rho func jac hess x1).
  { intros k. cbn [newton_min]. rewrite Ev. cbn [bind]. rewrite Ed. cbn [bind]. rewrite Er. cbn [bind].
    rewrite (eval0_spec func n m F r _ HF Hm Hr). cbn [bind]. rewrite (eval0_spec func n m F x0 g0 HF Hm Hx). cbn [bind].
    rewrite (vdotp_spec v d n _ _ Hn Hv HD). cbn [bind]. rewrite Ea. cbn [bind]. rewrite E1. reflexivity. }
  rewrite Hstep. apply (IH x1 _ H1). intros k x g Hk E Hxg. apply (HG (S k) x g ltac:(lia)); [|exact Hxg]. rewrite Hstep. exact E.
Qed.
End Run.

Lemma grad_min_nan pw func jac n m p F J : computes func n m F -> computes_mat jac n p n J -> (0 < m)%nat -> (0 < p)%nat -> (0 < n)%nat ->
  forall sigma iters fuel x0 g0, is_col x0 n g0 -> F g0 0%nat = S754_nan ->
  @grad_min f64 F64_ops (F64_pops pw) (S iters) fuel sigma func jac x0 = Ret None.
Proof.
  intros HF HJ Hm Hp Hn sigma iters fuel x0 g0 Hx HN. cbn [grad_min].
  destruct (grad_at_spec jac n p J x0 g0 HJ Hp Hn Hx) as (v & Ev & Hv). rewrite Ev. cbn [bind].
  rewrite (grad_search_nan pw func n m F HF Hm Hn sigma x0 (vneg v) g0 _ Hx (vneg_gen n v _ Hv) fuel one HN). reflexivity.
Qed.

(** ** Absorption *)
Local Open Scope R_scope.
#[local] Existing Instance Hprec53.
Lemma fmt_gap u v : fmt64 u -> fmt64 v -> 0 < u < v -> u * bpow radix2 (-53) < v - u.
Proof.
  intros Hu Hv H. assert (Hs : succ radix2 (FLT_exp (-1074) 53) u <= v) by (apply succ_le_lt; try assumption; try lra; typeclasses eauto).
  rewrite succ_eq_pos in Hs by lra.
  pose proof (ulp_FLT_gt radix2 (-1074) 53 u) as Hg. change (- (53))%Z with (-53)%Z in Hg. rewrite (Rabs_pos_eq u) in Hg by lra. lra.
Qed.
Lemma fmt_gap_abs u v : fmt64 u -> fmt64 v -> u <> v -> Rabs (v - u) <= Rabs u / 2 -> Rabs u / 2 * bpow radix2 (-53) < Rabs (v - u).
Proof.
  assert (H0 : forall u v, fmt64 u -> fmt64 v -> 0 < u -> u <> v -> Rabs (v - u) <= u / 2 -> u / 2 * bpow radix2 (-53) < Rabs (v - u)).
  { intros a b Ha Hb Hp Hne Hab. pose proof (bpow_gt_0 radix2 (-53)) as Hu. destruct (Rlt_or_le a b).
    - rewrite Rabs_pos_eq by lra. pose proof (fmt_gap a b Ha Hb ltac:(lra)). pose proof (Rmult_lt_0_compat _ _ Hp Hu). lra.
    - rewrite Rabs_left1 in * by lra. assert (Hb2 : a / 2 <= b) by lra. pose proof (fmt_gap b a Hb Ha ltac:(lra)).
      pose proof (Rmult_le_compat_r _ _ _ (Rlt_le _ _ Hu) Hb2). lra. }
  intros Hu Hv Hne Hab. destruct (Rtotal_order u 0) as [H|[H|H]].
  - rewrite (Rabs_left u) in * by lra. replace (v - u) with (- (- v - - u)) in * by ring. rewrite Rabs_Ropp in *.
    apply (H0 (- u) (- v)); [apply generic_format_opp; exact Hu|apply generic_format_opp; exact Hv|lra|lra|lra].
  - subst u. rewrite Rabs_R0 in *. assert (v = 0); [|lra]. revert Hab. unfold Rabs. destruct (Rcase_abs _); lra.
  - rewrite (Rabs_pos_eq u) in * by lra. apply H0; assumption.
Qed.
(** Adding at most 2^-55 of x to x changes nothing. *)
Lemma rnd_absorb x d : fmt64 x -> Rabs d <= Rabs x * bpow radix2 (-55) -> rnd64 (x + d) = x.
Proof.
  intros Hx Hd. destruct (Req_dec (rnd64 (x + d)) x) as [H|H]; [exact H|exfalso].
  assert (Hn : Rabs (rnd64 (x + d) - (x + d)) <= Rabs d).
  { destruct (round_N_pt radix2 (FLT_exp (-1074) 53) (fun z => negb (Z.even z)) (x + d)) as (_ & HN).
    specialize (HN x Hx). replace (x - (x + d)) with (- d) in HN by ring. rewrite Rabs_Ropp in HN. exact HN. }
  assert (Hb : Rabs (rnd64 (x + d) - x) <= 2 * Rabs d).
  { replace (rnd64 (x + d) - x) with ((rnd64 (x + d) - (x + d)) + d) by ring. eapply Rle_trans; [apply Rabs_triang|lra]. }
  assert (E : bpow radix2 (-53) = 4 * bpow radix2 (-55)) by (simpl; lra).
  assert (E2 : bpow radix2 (-55) <= / 4) by (simpl; lra).
  pose proof (Rabs_pos x) as Hp.
  pose proof (fmt_gap_abs x (rnd64 (x + d)) Hx ltac:(apply generic_format_round; typeclasses eauto) ltac:(congruence)) as HG.
  assert (Rabs x * bpow radix2 (-55) <= Rabs x / 4) by nra. specialize (HG ltac:(lra)). rewrite E in HG. lra.
Qed.
Lemma fadd_absorb x d : fvalid x -> fvalid d -> ffin x = true -> ffin d = true -> Rabs (fval d) <= Rabs (fval x) * bpow radix2 (-55) ->
  fvalid (add x d) /\ ffin (add x d) = true /\ fval (add x d) = fval x.
Proof.
  intros Vx Vd Fx Fd H. pose proof (rnd_absorb _ _ (fmt_fval x Vx) H) as E. split; [apply fvalid_add; assumption|].
  destruct (fadd_round x d Vx Vd Fx Fd) as (E1 & E2).
  - unfold no_overflow. rewrite E. rewrite <- (B2SF_toB x Vx), fval_B. apply abs_B2R_lt_emax.
  - rewrite E1, E. split; [exact E2|reflexivity].
Qed.

(** ** Digamma *)
Section Digamma.
Context {P : POps f64} {E : EOps f64}.
Lemma c172 : fvalid (lit 17 2) /\ ffin (lit 17 2 : f64) = true /\ fval (lit 17 2) = 17 / 2.
Proof. split; [vm_compute; reflexivity|]. split; [vm_compute; reflexivity|]. replace (lit 17 2 : f64) with (S754_finite false 4785074604081152 (-49)) by (vm_compute; reflexivity). unfold fval, SF2R, F2R. simpl. lra. Qed.
Lemma one_ok : fvalid (@one f64 F64_ops) /\ ffin (@one f64 F64_ops) = true.
Proof. split; reflexivity. Qed.

Lemma digamma_endless : forall fuel v x, fvalid x -> ffin x = true -> fval x <= - bpow radix2 55 -> digamma_loop fuel v x = None.
Proof.
  induction fuel as [|fuel IH]; intros v x Vx Fx Hx; cbn [digamma_loop]; destruct c172 as (V & F & Ec);
    rewrite fltb_val by assumption; rewrite Ec; rewrite Rlt_bool_true by (pose proof (bpow_gt_0 radix2 55); lra); [reflexivity|].
  destruct one_ok as (V1 & F1). destruct (fadd_absorb x one Vx V1 Fx F1) as (V2 & F2 & E2).
  - rewrite fval_one, Rabs_R1. rewrite Rabs_left1 by (pose proof (bpow_gt_0 radix2 55); lra).
    apply Rle_trans with (bpow radix2 55 * bpow radix2 (-55)); [rewrite <- bpow_plus; simpl; lra|].
    apply Rmult_le_compat_r; [apply bpow_ge_0|lra].
  - apply IH; [exact V2|exact F2|]. rewrite E2. exact Hx.
Qed.
Lemma digamma_neg_inf : forall fuel v, digamma_loop fuel v (S754_infinity true) = None.
Proof. induction fuel as [|fuel IH]; intros v; cbn [digamma_loop]; [vm_compute; reflexivity|]. replace (ltb _ _) with true by (vm_compute; reflexivity). apply IH. Qed.

(** Above -2^52 the argument grows by at least one half per iteration. *)
Lemma digamma_ends_gen : forall N v x, fvalid x -> ffin x = true -> - bpow radix2 52 <= fval x -> 17 / 2 <= fval x + INR N / 2 ->
  forall fuel, (N <= fuel)%nat -> exists r, digamma_loop fuel v x = Some r /\ digamma_loop N v x = Some r.
Proof.
  induction N as [|N IH]; intros v x Vx Fx Hl Hu fuel Hf.
  - exists (v, x). destruct c172 as (V & F & Ec). cbn [INR] in Hu.
    assert (Hlt : ltb x (lit 17 2) = false) by (rewrite fltb_val, Ec by assumption; apply Rlt_bool_false; lra).
    destruct fuel; cbn [digamma_loop]; rewrite Hlt; split; reflexivity.
  - destruct fuel as [|fuel]; [lia|]. cbn [digamma_loop]. destruct c172 as (V & F & Ec).
    destruct (ltb x (lit 17 2)) eqn:Hlt; [|exists (v, x); split; reflexivity].
    rewrite fltb_val, Ec in Hlt by assumption. revert Hlt. case Rlt_bool_spec; [intros Hlt _|discriminate].
    destruct one_ok as (V1 & F1). assert (E52 : bpow radix2 52 = 4503599627370496) by (simpl; lra).
    assert (B : Rabs (fval x + 1) <= 4503599627370496) by (apply Rabs_le; rewrite E52 in Hl; lra).
    destruct (fadd_ok x one Vx V1 Fx F1) as (V2 & F2 & E2).
    { rewrite fval_one. eapply Rle_trans; [exact B|]. replace 4503599627370496 with (bpow radix2 52). apply bpow_le. lia. }
    rewrite fval_one in E2. assert (He : Rabs (fval (add x one) - (fval x + 1)) <= / 2).
    { eapply Rle_trans; [exact E2|]. rewrite uro_val. lra. }
    apply Rabs_le_inv in He. apply (IH _ _ V2 F2); [lra|rewrite S_INR in Hu; lra|lia].
Qed.
Lemma digamma_f64_ends x : fvalid x -> (ffin x = true -> - bpow radix2 52 <= fval x) -> x <> S754_infinity true ->
  exists k w, forall fuel, (k <= fuel)%nat -> sdigamma fuel x = Some w.
Proof.
  intros Vx Hx Hi. unfold sdigamma. destruct (ffin x) eqn:Fx.
  - specialize (Hx eq_refl). assert (HN : exists N, 2 * (17 / 2 - fval x) <= INR N).
    { destruct (archimed (2 * (17 / 2 - fval x))) as [A _]. exists (Z.to_nat (up (2 * (17 / 2 - fval x)))). rewrite INR_IZR_INZ.
      destruct (Z_le_gt_dec 0 (up (2 * (17 / 2 - fval x)))) as [H|H]; [rewrite Z2Nat.id by lia; lra|].
      apply Z.gt_lt, IZR_lt in H. pose proof (IZR_le 0 (Z.of_nat (Z.to_nat (up (2 * (17 / 2 - fval x))))) ltac:(lia)); lra. }
    destruct HN as (N & HN). exists N.
    destruct (digamma_ends_gen N zero x Vx Fx Hx ltac:(lra) N (le_n N)) as (r & Hr & _).
    exists (let (v, x2) := r in digamma_tail v x2). intros fuel Hf.
    destruct (digamma_ends_gen N zero x Vx Fx Hx ltac:(lra) fuel Hf) as (r' & H1 & H2). rewrite H1. rewrite Hr in H2. injection H2 as <-. destruct r; reflexivity.
  - exists 0%nat. exists (digamma_tail zero x). intros fuel _.
    assert (Hlt : ltb x (lit 17 2) = false).
    { destruct x as [s|s| |s m e]; try discriminate Fx; [|vm_compute; reflexivity]. destruct s; [contradiction|vm_compute; reflexivity]. }
    destruct fuel; cbn [digamma_loop]; rewrite Hlt; reflexivity.
Qed.
End Digamma.

(** ** Incomplete gamma and beta functions *)
Definition fbad (x : f64) : Prop := ffin x = false.
Lemma fbad_add_l x y : fbad x -> fbad (add x y).
Proof. destruct x as [s|s| |s m e]; intros H; try discriminate H; destruct y as [t|t| |t k f]; try reflexivity; destruct s, t; reflexivity. Qed.
Lemma fbad_sub_l x y : fbad x -> fbad (sub x y).
Proof. destruct x as [s|s| |s m e]; intros H; try discriminate H; destruct y as [t|t| |t k f]; try reflexivity; destruct s, t; reflexivity. Qed.
Lemma fbad_mul x y : fbad x -> fbad y -> fbad (mul x y).
Proof. destruct x as [s|s| |s m e]; intros H; try discriminate H; destruct y as [t|t| |t k f]; intros H'; try discriminate H'; reflexivity. Qed.
Lemma fbad_mul_c x s m e : fbad x -> fbad (mul x (S754_finite s m e)).
Proof. destruct x as [t|t| |t k f]; intros H; try discriminate H; reflexivity. Qed.
Lemma fbad_div x y : fbad x -> fbad y -> div x y = S754_nan.
Proof. destruct x as [s|s| |s m e]; intros H; try discriminate H; destruct y as [t|t| |t k f]; intros H'; try discriminate H'; reflexivity. Qed.
Lemma fbad_neq0 x : fbad x -> eqb x zero = false.
Proof. destruct x as [s|s| |s m e]; intros H; try discriminate H; try destruct s; reflexivity. Qed.
Lemma nan_add_r x : add x S754_nan = S754_nan. Proof. destruct x; reflexivity. Qed.
Lemma nan_sub_r x : sub x S754_nan = S754_nan. Proof. destruct x; reflexivity. Qed.
Lemma nan_mul_r x : mul x S754_nan = S754_nan. Proof. destruct x; reflexivity. Qed.
Lemma nan_div_r x : div x S754_nan = S754_nan. Proof. destruct x; reflexivity. Qed.
Lemma nan_div_l x : div S754_nan x = S754_nan. Proof. destruct x; reflexivity. Qed.
Lemma nan_leb x : leb S754_nan x = false. Proof. destruct x; reflexivity. Qed.
Lemma big_inv_val : exists s m e, (lr_big_inv : f64) = S754_finite s m e.
Proof. eexists _, _, _. vm_compute. reflexivity. Qed.

Lemma lr_cf_endless : forall fuel y z c p3 q3 p2 q2 ans, fbad z -> (fbad p2 /\ fbad q2 \/ z = S754_nan) -> lr_cf (T := f64) fuel y z c p3 q3 p2 q2 ans = None.
Proof.
  induction fuel as [|fuel IH]; intros y z c p3 q3 p2 q2 ans Hz H; [reflexivity|]. cbn [lr_cf].
  assert (Hz' : fbad (add z (lit 2 1))) by (apply fbad_add_l; exact Hz).
  set (z' := add z (lit 2 1)) in *.
  assert (Hp : fbad (sub (mul p2 z') (mul p3 (mul (add y one) (add c one)))) /\ fbad (sub (mul q2 z') (mul q3 (mul (add y one) (add c one))))).
  { split; apply fbad_sub_l; (destruct H as [(H1 & H2)|H]; [apply fbad_mul; assumption|]);
      (replace z' with S754_nan by (unfold z'; rewrite H; reflexivity)); rewrite nan_mul_r; reflexivity. }
  destruct Hp as (Hp & Hq).
  set (pn := sub (mul p2 z') (mul p3 (mul (add y one) (add c one)))) in *. set (qn := sub (mul q2 z') (mul q3 (mul (add y one) (add c one)))) in *.
  clearbody pn qn z'. destruct big_inv_val as (bs & bm & be & Eb). rewrite Eb.
  destruct (ltb lr_big (tabs pn)); cbv beta iota; rewrite (fbad_neq0 qn Hq); cbn [negb]; rewrite (fbad_div pn qn Hp Hq), nan_div_r;
    change (tabs (S754_nan : f64)) with S754_nan; rewrite nan_leb; apply IH; try exact Hz'; left; split; try apply fbad_mul_c; assumption.
Qed.
Lemma lr_series_endless : forall fuel x c ans, lr_series (T := f64) fuel x S754_nan c ans = None.
Proof.
  induction fuel as [|fuel IH]; intros x c ans; [reflexivity|]. cbn [lr_series]. change (add (S754_nan : f64) one) with S754_nan.
  rewrite nan_div_r, nan_mul_r, nan_add_r, nan_div_r, nan_leb. apply IH.
Qed.

Section Gamma.
Context {P : POps f64} {E : EOps f64} {Zo : ZOps f64}.
Lemma gamma_lr_nan_x fuel (a : f64) : eqb a zero = false -> sgamma_lr (T := f64) fuel a S754_nan = Ret None.
Proof.
  intros Ha. unfold sgamma_lr. change (leb (S754_nan : f64) zero) with false. cbv iota. rewrite Ha. cbv iota.
  change (eqb (S754_nan : f64) zero) with false. cbv iota zeta. rewrite nan_sub_r. change (sub (S754_nan : f64) ?y) with S754_nan.
  replace (sub (S754_nan : f64) (sln_gamma a)) with (S754_nan : f64) by (destruct (sln_gamma a); reflexivity).
  replace (ltb (S754_nan : f64) (lit (-70978271289338399) 100000000000000)) with false by (vm_compute; reflexivity).
  rewrite !nan_leb. cbn [orb]. rewrite lr_cf_endless; [reflexivity|reflexivity|right; reflexivity].
Qed.
Lemma gamma_lr_nan_a fuel (x : f64) : leb x zero = false -> sgamma_lr (T := f64) fuel S754_nan x = Ret None.
Proof.
  intros Hx. unfold sgamma_lr. rewrite Hx. change (eqb (S754_nan : f64) zero) with false. cbv iota.
  destruct (eqb x zero) eqn:E0.
  - destruct (feqb_eq_or_zero _ _ E0) as [->|((s & ->) & _)]; try destruct s; discriminate Hx.
  - cbv zeta. change (mul (S754_nan : f64) (tln x)) with S754_nan || replace (mul (S754_nan : f64) (tln x)) with (S754_nan : f64) by (destruct (tln x); reflexivity).
    replace (sub (S754_nan : f64) x) with (S754_nan : f64) by (destruct x; reflexivity).
    replace (sub (S754_nan : f64) (sln_gamma S754_nan)) with (S754_nan : f64) by (destruct (sln_gamma S754_nan); reflexivity).
    replace (ltb (S754_nan : f64) (lit (-70978271289338399) 100000000000000)) with false by (vm_compute; reflexivity).
    destruct (_ || _).
    + rewrite lr_series_endless. reflexivity.
    + rewrite nan_sub_r, nan_add_r. change (add (S754_nan : f64) one) with S754_nan. rewrite lr_cf_endless; [reflexivity|reflexivity|right; reflexivity].
Qed.
Lemma gamma_lr_inf fuel (a : f64) : tln (T := f64) (S754_infinity false) = S754_infinity false -> ltb zero a = true -> ffin a = true ->
  sgamma_lr (T := f64) fuel a (S754_infinity false) = Ret None.
Proof.
  intros Hln Ha Fa. destruct a as [s|s| |s m e]; try discriminate Fa; try (destruct s; discriminate Ha). destruct s; [discriminate Ha|].
  unfold sgamma_lr. change (leb (S754_infinity false : f64) zero) with false. change (eqb (S754_finite false m e : f64) zero) with false.
  change (eqb (S754_infinity false : f64) zero) with false. cbv iota zeta. rewrite Hln.
  change (sub (mul (S754_finite false m e : f64) (S754_infinity false)) (S754_infinity false)) with (S754_nan : f64).
  replace (sub (S754_nan : f64) (sln_gamma (S754_finite false m e))) with (S754_nan : f64) by (destruct (sln_gamma (S754_finite false m e)); reflexivity).
  replace (ltb (S754_nan : f64) (lit (-70978271289338399) 100000000000000)) with false by (vm_compute; reflexivity).
  change (leb (S754_infinity false : f64) one) with false. change (leb (S754_infinity false : f64) (S754_finite false m e)) with false. cbn [orb].
  assert (Hz : fbad (add (add (S754_infinity false : f64) (sub one (S754_finite false m e))) one)) by (apply fbad_add_l, fbad_add_l; reflexivity).
  rewrite lr_cf_endless; [reflexivity|exact Hz|]. left. split; [reflexivity|apply fbad_mul; [exact Hz|reflexivity]].
Qed.

Lemma beta_loop_endless : forall fuel pp qq xx ns psq ai term value temp rx, term = S754_nan \/ pp = S754_nan \/ temp = S754_nan \/ rx = S754_nan ->
  beta_loop (T := f64) fuel pp qq xx ns psq ai term value temp rx = None.
Proof.
  induction fuel as [|fuel IH]; intros pp qq xx ns psq ai term value temp rx H; [reflexivity|]. cbn [beta_loop].
  replace (div (mul (mul term temp) rx) (add pp ai)) with (S754_nan : f64).
  - change (tabs (S754_nan : f64)) with S754_nan. rewrite !nan_leb. cbn [andb]. destruct (0 <=? ns - 1)%Z; apply IH; left; reflexivity.
  - symmetry. destruct H as [-> | [-> | [-> | ->]]].
    + change (mul (S754_nan : f64) temp) with S754_nan || replace (mul (S754_nan : f64) temp) with (S754_nan : f64) by (destruct temp; reflexivity).
      replace (mul (S754_nan : f64) rx) with (S754_nan : f64) by (destruct rx; reflexivity). apply nan_div_l.
    + replace (add (S754_nan : f64) ai) with (S754_nan : f64) by (destruct ai; reflexivity). apply nan_div_r.
    + rewrite nan_mul_r. replace (mul (S754_nan : f64) rx) with (S754_nan : f64) by (destruct rx; reflexivity). apply nan_div_l.
    + rewrite nan_mul_r. apply nan_div_l.
Qed.
Lemma beta_inc_nan fuel (x a b : f64) : fvalid x -> (x = S754_nan /\ leb a zero = false /\ leb b zero = false) \/
  (ltb zero x = true /\ ltb x one = true /\ (a = S754_nan /\ leb b zero = false \/ leb a zero = false /\ b = S754_nan)) ->
  sbeta_inc_reg (T := f64) fuel x a b = Ret None.
Proof.
  intros Vx H. unfold sbeta_inc_reg.
  assert (Hab : leb a zero = false /\ leb b zero = false) by (destruct H as [(_ & H)|(_ & _ & [(-> & H)|(H & ->)])]; [exact H|split; [reflexivity|exact H]|split; [exact H|reflexivity]]).
  destruct Hab as (-> & ->). cbn [orb].
  assert (Hx : ltb x zero = false /\ ltb one x = false /\ eqb x zero = false /\ eqb x one = false).
  { destruct H as [(-> & _)|(H1 & H2 & _)]; [repeat split|].
    assert (Fx : ffin x = true) by (destruct x as [s|s| |s m e]; [reflexivity|destruct s; [discriminate H1|discriminate H2]|discriminate H1|reflexivity]).
    rewrite fltb_val in H1, H2 by (assumption || reflexivity). rewrite !fltb_val by (assumption || reflexivity). rewrite fval_one in *. change (fval zero) with 0 in *.
    revert H1 H2. case Rlt_bool_spec; [intros H1 _|discriminate]. case Rlt_bool_spec; [intros H2 _|discriminate].
    rewrite !Rlt_bool_false by lra. split; [reflexivity|]. split; [reflexivity|].
    split; apply not_true_is_false; intros Hc; (destruct (feqb_eq_or_zero _ _ Hc) as [Hd|((s & Hd) & _)]; apply (f_equal fval) in Hd; rewrite ?fval_one in Hd).
    - change (fval zero) with 0 in Hd. lra.
    - change (fval (S754_zero s)) with 0 in Hd. lra.
    - lra.
    - change (fval (S754_zero s)) with 0 in Hd. lra. }
  destruct Hx as (-> & -> & -> & ->). cbn [orb].
  assert (Hsw : ltb a (mul (add a b) x) = false).
  { destruct H as [(-> & _)|(_ & _ & [(-> & _)|(_ & ->)])].
    - rewrite nan_mul_r. destruct a as [s|s| |s m e]; try destruct s; reflexivity.
    - destruct (mul _ x); reflexivity.
    - rewrite nan_add_r. replace (mul (S754_nan : f64) x) with (S754_nan : f64) by (destruct x; reflexivity). destruct a as [s|s| |s m e]; try destruct s; reflexivity. }
  rewrite Hsw. cbv beta iota zeta. rewrite beta_loop_endless; [reflexivity|].
  destruct H as [(-> & _)|(_ & _ & [(-> & _)|(_ & ->)])].
  - right. right. right. destruct (_ =? 0)%Z; [reflexivity|]. apply nan_div_l.
  - right. left. reflexivity.
  - right. right. left. reflexivity.
Qed.
End Gamma.
