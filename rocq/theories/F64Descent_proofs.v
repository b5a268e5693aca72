(** The line searches in binary64 never accept a larger computed objective. *)
From Coq Require Import Arith Lia List Bool ZArith Reals Lra Psatz SpecFloat.
From Flocq Require Import Core IEEE754.BinarySingleNaN.
From Verif Require Import Outcome Scalar RealOps Elem_model Matrix_model Vector_model LU_model Decomp_model Ode_model Optim_model
  Matrix_spec F64_spec Optim_spec Matrix_proofs Vector_proofs Sums Ode_proofs Descent_proofs F64Flocq F64Err_proofs F64Grid_proofs F64Term_proofs.
Import ListNotations.
Local Open Scope R_scope.

(** ** Signs *)
Lemma rnd_aux_sign s m e l : SpecFloat.binary_round_aux 53 1024 s m e l = S754_nan \/
  match SpecFloat.binary_round_aux 53 1024 s m e l with S754_zero t | S754_infinity t | S754_finite t _ _ => t = s | S754_nan => False end.
Proof.
  unfold SpecFloat.binary_round_aux. destruct (shr_fexp _ _ _ _ _) as [r e1]. destruct (shr_fexp _ _ _ _ _) as [r2 e2].
  destruct (shr_m r2); [right; reflexivity| |left; reflexivity]. destruct (Z.leb _ _); right; reflexivity.
Qed.
Lemma round_sign s m e : SpecFloat.binary_round 53 1024 s m e = S754_nan \/
  match SpecFloat.binary_round 53 1024 s m e with S754_zero t | S754_infinity t | S754_finite t _ _ => t = s | S754_nan => False end.
Proof. unfold SpecFloat.binary_round. destruct (shl_align m e _). apply rnd_aux_sign. Qed.

Definition nn (x : f64) : Prop := x = S754_nan \/ leb zero x = true.
Definition np (x : f64) : Prop := x = S754_nan \/ leb x zero = true.

Lemma sign_nn (x : f64) : match x with S754_zero t | S754_infinity t | S754_finite t _ _ => t = false | S754_nan => False end -> nn x.
Proof. destruct x as [[]|[]| |[] ? ?]; intros H; try discriminate H; try (destruct H; fail); right; reflexivity. Qed.
Lemma sign_np (x : f64) : match x with S754_zero t | S754_infinity t | S754_finite t _ _ => t = true | S754_nan => False end -> np x.
Proof. destruct x as [[]|[]| |[] ? ?]; intros H; try discriminate H; try (destruct H; fail); right; reflexivity. Qed.

Lemma aux_nn m e l : nn (SpecFloat.binary_round_aux 53 1024 false m e l).
Proof. destruct (rnd_aux_sign false m e l) as [H|H]; [left; exact H|apply sign_nn, H]. Qed.
Lemma aux_np m e l : np (SpecFloat.binary_round_aux 53 1024 true m e l).
Proof. destruct (rnd_aux_sign true m e l) as [H|H]; [left; exact H|apply sign_np, H]. Qed.

Ltac fsplit x := destruct x as [[]|[]| |[] ? ?].
Ltac closes := first [left; reflexivity | right; reflexivity].

Lemma mul_nn_nn (x y : f64) : nn x -> nn y -> nn (mul x y).
Proof.
  intros [->|Hx]; [left; destruct y; reflexivity|]. intros [->|Hy]; [left; destruct x; reflexivity|].
  fsplit x; try discriminate Hx; fsplit y; try discriminate Hy; try closes. apply aux_nn.
Qed.
Lemma mul_np_nn (x y : f64) : np x -> nn y -> np (mul x y).
Proof.
  intros [->|Hx]; [left; destruct y; reflexivity|]. intros [->|Hy]; [left; destruct x; reflexivity|].
  fsplit x; try discriminate Hx; fsplit y; try discriminate Hy; try closes. apply aux_np.
Qed.
Lemma mul_nn_np (x y : f64) : nn x -> np y -> np (mul x y).
Proof.
  intros [->|Hx]; [left; destruct y; reflexivity|]. intros [->|Hy]; [left; destruct x; reflexivity|].
  fsplit x; try discriminate Hx; fsplit y; try discriminate Hy; try closes. apply aux_np.
Qed.
Lemma mul_np_np (x y : f64) : np x -> np y -> nn (mul x y).
Proof.
  intros [->|Hx]; [left; destruct y; reflexivity|]. intros [->|Hy]; [left; destruct x; reflexivity|].
  fsplit x; try discriminate Hx; fsplit y; try discriminate Hy; try closes. apply aux_nn.
Qed.
Lemma nn_or_np (x : f64) : nn x \/ np x.
Proof. fsplit x; first [left; closes|right; closes]. Qed.
Lemma neg_nn (x : f64) : nn x -> np (neg x).
Proof. intros [->|H]; [left; reflexivity|]. fsplit x; try discriminate H; closes. Qed.
Lemma neg_np (x : f64) : np x -> nn (neg x).
Proof. intros [->|H]; [left; reflexivity|]. fsplit x; try discriminate H; closes. Qed.

Lemma norm_pos p e s : nn (SpecFloat.binary_normalize 53 1024 (Zpos p) e s).
Proof. cbn [SpecFloat.binary_normalize]. destruct (round_sign false p e) as [H|H]; [left; exact H|apply sign_nn, H]. Qed.
Lemma norm_neg p e s : np (SpecFloat.binary_normalize 53 1024 (Zneg p) e s).
Proof. cbn [SpecFloat.binary_normalize]. destruct (round_sign true p e) as [H|H]; [left; exact H|apply sign_np, H]. Qed.

Lemma add_nn (x y : f64) : nn x -> nn y -> nn (add x y).
Proof.
  intros [->|Hx]; [left; destruct y; reflexivity|]. intros [->|Hy]; [left; destruct x; reflexivity|].
  fsplit x; try discriminate Hx; fsplit y; try discriminate Hy; try closes.
  cbn [add F64_ops SFadd]. cbv zeta. cbn [cond_Zopp]. apply norm_pos.
Qed.
Lemma add_np (x y : f64) : np x -> np y -> np (add x y).
Proof.
  intros [->|Hx]; [left; destruct y; reflexivity|]. intros [->|Hy]; [left; destruct x; reflexivity|].
  fsplit x; try discriminate Hx; fsplit y; try discriminate Hy; try closes.
  cbn [add F64_ops SFadd]. cbv zeta. cbn [cond_Zopp]. apply norm_neg.
Qed.
Lemma sum_nn n (f : nat -> f64) : (forall i, (i < n)%nat -> nn (f i)) -> nn (sumn n f).
Proof. induction n as [|n IH]; intros H; [right; reflexivity|]. cbn [sumn]. apply add_nn; [apply IH; auto|apply H; lia]. Qed.
Lemma sum_np n (f : nat -> f64) : (forall i, (i < n)%nat -> np (f i)) -> np (sumn n f).
Proof. induction n as [|n IH]; intros H; [right; reflexivity|]. cbn [sumn]. apply add_np; [apply IH; auto|apply H; lia]. Qed.

(** ** Order *)
Lemma fleb_trans (x y z : f64) : fvalid x -> fvalid y -> fvalid z -> leb x y = true -> leb y z = true -> leb x z = true.
Proof.
  intros Hx Hy Hz H1 H2.
  destruct (ffin x) eqn:Fx; [destruct (ffin y) eqn:Fy; [destruct (ffin z) eqn:Fz|]|].
  - rewrite fleb_val in * by assumption. destruct (Rle_bool_spec (fval x) (fval y)); [|discriminate]. destruct (Rle_bool_spec (fval y) (fval z)); [|discriminate].
    apply Rle_bool_true. lra.
  - fsplit z; try discriminate Fz; fsplit y; try discriminate Fy; try discriminate H2; fsplit x; try discriminate Fx; try reflexivity.
  - fsplit y; try discriminate Fy; fsplit x; try discriminate Fx; try discriminate H1; fsplit z; try discriminate H2; reflexivity.
  - fsplit x; try discriminate Fx; fsplit y; try discriminate H1; fsplit z; try discriminate H2; reflexivity.
Qed.
Lemma fnlt_le (a b : f64) : fvalid a -> fvalid b -> a <> S754_nan -> b <> S754_nan -> ltb a b = false -> leb b a = true.
Proof.
  intros Ha Hb Na Nb H. destruct (ffin a) eqn:Fa; [destruct (ffin b) eqn:Fb|].
  - rewrite fltb_val in H by assumption. rewrite fleb_val by assumption. destruct (Rlt_bool_spec (fval a) (fval b)); [discriminate|]. apply Rle_bool_true. lra.
  - fsplit b; try discriminate Fb; try (destruct Nb; reflexivity); fsplit a; try discriminate Fa; try discriminate H; reflexivity.
  - fsplit a; try discriminate Fa; try (destruct Na; reflexivity); fsplit b; try (destruct Nb; reflexivity); try discriminate H; reflexivity.
Qed.
Lemma rnd_le (a v : R) : fmt64 a -> v <= a -> rnd64 v <= a.
Proof. intros Ha H. apply round_le_generic; [typeclasses eauto|typeclasses eauto|exact Ha|exact H]. Qed.

Lemma nn_val x : fvalid x -> ffin x = true -> leb zero x = true -> 0 <= fval x.
Proof.
  intros H F L. assert (V : fvalid (zero : f64)) by reflexivity. rewrite (fleb_val zero x V H eq_refl F) in L.
  change (fval zero) with 0 in L. destruct (Rle_bool_spec 0 (fval x)); [lra|discriminate].
Qed.
Lemma np_val x : fvalid x -> ffin x = true -> leb x zero = true -> fval x <= 0.
Proof.
  intros H F L. assert (V : fvalid (zero : f64)) by reflexivity. rewrite (fleb_val x zero H V F eq_refl) in L.
  change (fval zero) with 0 in L. destruct (Rle_bool_spec (fval x) 0); [lra|discriminate].
Qed.

(** Subtracting a non-negative number does not increase. *)
Lemma fsub_le (a b : f64) : fvalid a -> fvalid b -> leb zero b = true -> sub a b = S754_nan \/ leb (sub a b) a = true.
Proof.
  intros Ha Hb L. destruct (ffin a) eqn:Fa; [destruct (ffin b) eqn:Fb|].
  - right. pose proof (nn_val b Hb Fb L) as P. pose proof (fvalid_sub a b Ha Hb) as Hs.
    destruct (ffin (sub a b)) eqn:Fs.
    + destruct (fsub_fin a b Ha Hb Fs) as (_ & _ & E). rewrite fleb_val by assumption. apply Rle_bool_true. rewrite E. apply rnd_le; [now apply fmt_fval|lra].
    + assert (Hov : ~ no_overflow (fval a - fval b)) by (intros N; destruct (fsub_round a b Ha Hb Fa Fb N); congruence).
      change (sub a b) with (SFsub 53 1024 a b) in *. unfold no_overflow in Hov. lift a b Ha Hb. rewrite SFsub_equiv, !fval_B, !ffin_B in *.
      pose proof (Bminus_correct 53 1024 Hprec53 Hmax53 mode_NE _ _ Fa Fb) as H. rewrite rnd_eq in H.
      rewrite Rlt_bool_false in H by lra. destruct H as [H HS]. rewrite H.
      change (binary_overflow 53 1024 mode_NE (Bsign (toB a Ha))) with (S754_infinity (Bsign (toB a Ha))).
      assert (S : Bsign (toB a Ha) = true).
      { destruct (Bsign (toB a Ha)) eqn:Sa; [reflexivity|exfalso]. assert (Sb : Bsign (toB b Hb) = true) by (destruct (Bsign (toB b Hb)); [reflexivity|discriminate HS]).
        apply Hov. assert (B0 : B2R (toB b Hb) = 0).
        { destruct (toB b Hb) as [s|s| |s m e B]; try reflexivity. cbn in Sb. subst s. cbn in L. discriminate L. }
        rewrite B0, Rminus_0_r. rewrite round_generic; [|typeclasses eauto|apply generic_format_B2R]. apply abs_B2R_lt_emax. }
      rewrite S. destruct (toB a Ha) as [s|s| |s m e B]; try discriminate Fa; cbn in S; subst s; reflexivity.
  - fsplit b; try discriminate Fb; try discriminate L. fsplit a; try discriminate Fa; right; reflexivity.
  - fsplit a; try discriminate Fa; fsplit b; try discriminate L; first [left; reflexivity|right; reflexivity].
Qed.
Lemma fsub_neg (a t : f64) : sub a (neg t) = add a t.
Proof. fsplit a; fsplit t; reflexivity. Qed.
Lemma fadd_le (a t : f64) : fvalid a -> fvalid t -> leb t zero = true -> add a t = S754_nan \/ leb (add a t) a = true.
Proof.
  intros Ha Ht L. rewrite <- fsub_neg. apply fsub_le; [exact Ha| |].
  - fsplit t; exact Ht.
  - fsplit t; try discriminate L; reflexivity.
Qed.
Lemma fvalid_neg (t : f64) : fvalid t -> fvalid (neg t).
Proof. fsplit t; exact (fun H => H). Qed.

(** ** Step sizes *)
Lemma half_step (a : f64) : fvalid a -> ffin a = true -> 0 <= fval a <= 1 ->
  let h := div a (S754_finite false 4503599627370496 (-51)) in fvalid h /\ ffin h = true /\ 0 <= fval h <= 1.
Proof.
  intros Ha Fa B. cbv zeta. set (w := S754_finite false 4503599627370496 (-51)).
  assert (Hw : fvalid w) by reflexivity. assert (Fw : ffin w = true) by reflexivity.
  assert (Ew : fval w = 2) by (unfold fval, w, SF2R, F2R; cbn; lra).
  destruct (fdiv_round a w Ha Hw Fa Fw) as [E F]; [lra|apply no_ov; rewrite Ew; apply Rle_trans with (bpow radix2 0); [change (bpow radix2 0) with 1; rewrite Rabs_pos_eq; lra|apply bpow_le; lia]|].
  split; [now apply fvalid_div|]. split; [exact F|]. rewrite E, Ew. split.
  - apply round_ge_generic; [typeclasses eauto|typeclasses eauto|apply generic_format_0|lra].
  - apply rnd_le; [|lra]. change 1 with (bpow radix2 0). apply generic_format_bpow. cbn. lia.
Qed.
Lemma one_step : fvalid (one : f64) /\ ffin (one : f64) = true /\ 0 <= fval (one : f64) <= 1.
Proof. split; [reflexivity|]. split; [reflexivity|]. unfold fval, one, F64_ops, SF2R, F2R. cbn. lra. Qed.
Lemma val_nn x : fvalid x -> ffin x = true -> 0 <= fval x -> leb zero x = true.
Proof.
  intros H F L. assert (V : fvalid (zero : f64)) by reflexivity. rewrite (fleb_val zero x V H eq_refl F).
  change (fval zero) with 0. now apply Rle_bool_true.
Qed.

Section Search.
Variables (pw : f64 -> f64 -> f64).
#[local] Hint Extern 0 (POps f64) => exact (F64_pops pw) : typeclass_instances.
Variables (func : vector f64 -> outcome (vector f64)) (n m : nat) (F : (nat -> f64) -> nat -> f64).
Hypothesis HF : computes func n m F.
Hypothesis Hm : (0 < m)%nat.
Hypothesis Hn : (0 < n)%nat.
Variables (sigma : f64).
Hypothesis Vs : fvalid sigma.
Hypothesis Hs : leb zero sigma = true.

Lemma grad_search_descent x v g d : is_col x n g -> is_col v n d -> (forall i, (i < n)%nat -> fvalid (d i)) -> fvalid (F g 0%nat) ->
  forall fuel alpha, fvalid alpha -> ffin alpha = true -> 0 <= fval alpha <= 1 -> forall a,
  grad_search fuel sigma func x v alpha = Ret (Some a) ->
  fvalid a /\ (fvalid (F (fun i => add (g i) (mul (d i) a)) 0%nat) -> leb (F (fun i => add (g i) (mul (d i) a)) 0%nat) (F g 0%nat) = true).
Proof.
  intros Hx Hv Vd VF. induction fuel as [|fuel IH]; intros alpha Va Fa Ba a E; [discriminate E|].
  rewrite (grad_search_unfold pw func n m F HF Hm Hn sigma x v g d Hx Hv) in E.
  match type of E with (if ?c then _ else _) = _ => destruct c eqn:L end.
  2: { destruct (half_step alpha Va Fa Ba) as (V1 & F1 & B1). exact (IH _ V1 F1 B1 a E). }
  injection E as <-. split; [exact Va|]. intros VT.
  set (b := mul sigma _) in L.
  assert (Vb : fvalid b) by (apply fvalid_mul; [exact Vs|]; apply fsum_valid; intros i Hi; apply fvalid_mul; [apply fvalid_mul; auto|auto]).
  assert (Nb : nn b).
  { apply mul_nn_nn; [right; exact Hs|]. apply sum_nn. intros i _. assert (Na : nn alpha) by (right; apply val_nn; [assumption..|apply Ba]).
    destruct (nn_or_np (d i)) as [H|H]; [apply mul_nn_nn; [apply mul_nn_nn|]; assumption|apply mul_np_np; [apply mul_np_nn|]; assumption]. }
  assert (NN : sub (F g 0%nat) b <> S754_nan) by (intros H; rewrite H in L; match type of L with leb ?a _ = _ => destruct a as [[]|[]| |[] ? ?]; discriminate L end).
  destruct Nb as [Nb|Nb]; [exfalso; apply NN; rewrite Nb; destruct (F g 0%nat) as [[]|[]| |[] ? ?]; reflexivity|].
  destruct (fsub_le (F g 0%nat) b VF Vb Nb) as [H|H]; [contradiction|].
  refine (fleb_trans _ _ _ VT (fvalid_sub _ _ VF Vb) VF L H).
Qed.

Hypothesis Fs : ffin sigma = true.
Lemma newton_search_descent x v g d temp : is_col x n g -> is_col v n d -> fvalid (F g 0%nat) -> F g 0%nat <> S754_nan ->
  fvalid temp -> ffin temp = true -> leb temp zero = true ->
  forall fuel alpha, fvalid alpha -> ffin alpha = true -> 0 <= fval alpha <= 1 -> forall a,
  newton_search fuel sigma func x v (F g 0%nat) temp alpha (F (fun i => add (g i) (mul (d i) alpha)) 0%nat) = Ret (Some a) ->
  fvalid a /\ (fvalid (F (fun i => add (g i) (mul (d i) a)) 0%nat) -> F (fun i => add (g i) (mul (d i) a)) 0%nat <> S754_nan ->
    leb (F (fun i => add (g i) (mul (d i) a)) 0%nat) (F g 0%nat) = true).
Proof.
  intros Hx Hv VF NF Vt Ft Lt.
  assert (HA : forall alpha, fvalid alpha -> ffin alpha = true -> 0 <= fval alpha <= 1 ->
    ltb (add (F g 0%nat) (mul temp (mul sigma alpha))) (F (fun i => add (g i) (mul (d i) alpha)) 0%nat) = false ->
    fvalid (F (fun i => add (g i) (mul (d i) alpha)) 0%nat) -> F (fun i => add (g i) (mul (d i) alpha)) 0%nat <> S754_nan ->
    leb (F (fun i => add (g i) (mul (d i) alpha)) 0%nat) (F g 0%nat) = true).
  { intros alpha Va Fa Ba L VT NT. set (fr := F (fun i => _) 0%nat) in L, VT, NT |- *. set (fx := F g 0%nat) in *. clearbody fr fx.
    pose proof (nn_val sigma Vs Fs Hs) as Ps.
    destruct (fmul_round sigma alpha Vs Va Fs Fa) as [E1 F1].
    { unfold no_overflow. apply Rle_lt_trans with (Rabs (fval sigma)).
      - apply abs_round_le_generic; [typeclasses eauto|typeclasses eauto|apply generic_format_abs, fmt_fval, Vs|].
        rewrite !Rabs_pos_eq by nra. nra.
      - generalize Fs. rewrite <- (B2SF_toB sigma Vs), fval_B. intros _. apply abs_B2R_lt_emax. }
    pose proof (fvalid_mul sigma alpha Vs Va) as V1. set (c := mul sigma alpha) in *.
    assert (Nc : leb zero c = true) by (apply val_nn; [exact V1|exact F1|]; rewrite E1; apply round_ge_generic; [typeclasses eauto|typeclasses eauto|apply generic_format_0|nra]).
    pose proof (fvalid_mul temp c Vt V1) as V2. pose proof (mul_np_nn temp c (or_intror Lt) (or_intror Nc)) as [N2|N2].
    - exfalso. clear - N2 Ft F1 Vt V1. change (mul temp c) with (SFmul 53 1024 temp c) in N2. lift temp c Vt V1. rewrite SFmul_equiv, !ffin_B in *.
      pose proof (Bmult_correct 53 1024 Hprec53 Hmax53 mode_NE (toB temp Vt) (toB c V1)) as H. destruct (Rlt_bool _ _).
      + destruct H as (_ & H & _). rewrite Ft, F1 in H. destruct (Bmult _ _ _); cbn in H, N2; discriminate.
      + rewrite H in N2. discriminate N2.
    - destruct (fadd_le fx (mul temp c) VF V2 N2) as [H|H].
      + clear - H VF V2 N2 NF NT VT. destruct (ffin fx) eqn:Ffx; [destruct (ffin (mul temp c)) eqn:Fm|].
        * exfalso. set (t := mul temp c) in *. change (add fx t) with (SFadd 53 1024 fx t) in H. lift fx t VF V2. rewrite SFadd_equiv, !ffin_B in *.
          pose proof (Bplus_correct 53 1024 Hprec53 Hmax53 mode_NE _ _ Ffx Fm) as B. destruct (Rlt_bool _ _).
          -- destruct B as (_ & B & _). destruct (Bplus _ _ _); cbn in B, H; discriminate.
          -- destruct B as [B _]. rewrite B in H. discriminate H.
        * exfalso. set (t := mul temp c) in *. clearbody t. fsplit t; try discriminate Fm; try discriminate N2; fsplit fx; try discriminate Ffx; discriminate H.
        * set (t := mul temp c) in *. clearbody t. fsplit fx; try discriminate Ffx; try (destruct (NF eq_refl)).
          -- exfalso. fsplit t; try discriminate N2; discriminate H.
          -- fsplit fr; try (destruct (NT eq_refl)); reflexivity.
      + assert (NN : add fx (mul temp c) <> S754_nan) by (intros E; rewrite E in H; destruct fx as [[]|[]| |[] ? ?]; discriminate H).
        pose proof (fvalid_add _ _ VF V2) as V3. exact (fleb_trans _ _ _ VT V3 VF (fnlt_le _ _ V3 VT NN NT L) H). }
  induction fuel as [|fuel IH]; intros alpha Va Fa Ba a E.
  - cbn [newton_search] in E. match type of E with (if ?c then _ else _) = _ => destruct c eqn:L end; [discriminate E|]. injection E as <-. split; [exact Va|]. now apply HA.
  - rewrite (newton_search_unfold pw func n m F HF Hm sigma temp x v g d Hx Hv) in E. match type of E with (if ?c then _ else _) = _ => destruct c eqn:L end.
    + destruct (half_step alpha Va Fa Ba) as (V1 & F1 & B1). exact (IH _ V1 F1 B1 a E).
    + injection E as <-. split; [exact Va|]. now apply HA.
Qed.
End Search.

(** ** Whole runs *)
Section Run.
Variables (pw : f64 -> f64 -> f64).
#[local] Hint Extern 0 (POps f64) => exact (F64_pops pw) : typeclass_instances.
Variables (func : vector f64 -> outcome (vector f64)) (jac : vector f64 -> outcome (matrix f64)) (n m p : nat).
Variables (F : (nat -> f64) -> nat -> f64) (J : (nat -> f64) -> nat -> nat -> f64).
Hypothesis HF : computes func n m F.
Hypothesis HJ : computes_mat jac n p n J.
Hypothesis Hm : (0 < m)%nat.
Hypothesis Hp : (0 < p)%nat.
Hypothesis Hn : (0 < n)%nat.
Hypothesis VF : forall g, (forall i, (i < n)%nat -> fvalid (g i)) -> fvalid (F g 0%nat).
Hypothesis VJ : forall g, (forall i, (i < n)%nat -> fvalid (g i)) -> forall i, (i < n)%nat -> fvalid (J g 0%nat i).
Variable sigma : f64.
Hypothesis Vs : fvalid sigma.
Hypothesis Hs : leb zero sigma = true.

Lemma grad_min_descent fuel : forall iters x0 g0 x, is_col x0 n g0 -> (forall i, (i < n)%nat -> fvalid (g0 i)) -> F g0 0%nat <> S754_nan ->
  grad_min iters fuel sigma func jac x0 = Ret (Some x) ->
  exists g, is_col x n g /\ (forall i, (i < n)%nat -> fvalid (g i)) /\ leb (F g 0%nat) (F g0 0%nat) = true.
Proof.
  induction iters as [|iters IH]; intros x0 g0 x Hx Vg NF E.
  - injection E as <-. exists g0. split; [exact Hx|]. split; [exact Vg|]. now apply fleb_refl.
  - cbn [grad_min] in E. destruct (grad_at_spec jac n p J x0 g0 HJ Hp Hn Hx) as (v & Ev & Hv).
    rewrite Ev in E. cbn [bind] in E. pose proof (vneg_gen n v _ Hv) as Hd.
    destruct (grad_search fuel sigma func x0 (vneg v) one) as [[a|]|] eqn:Ea; cbn [bind] in E; try discriminate E.
    destruct one_step as (V1 & F1 & B1).
    destruct (grad_search_descent pw func n m F HF Hm Hn sigma Vs Hs x0 (vneg v) g0 _ Hx Hd
      (fun i Hi => fvalid_neg _ (VJ g0 Vg i Hi)) (VF g0 Vg) fuel one V1 F1 B1 a Ea) as [Va L].
    destruct (vadd_col x0 _ n g0 _ Hx (vmul_scalar_col _ n _ a Hd)) as (x1 & E1 & H1). rewrite E1 in E. cbn [bind] in E.
    set (g1 := fun i => add (g0 i) (mul (neg (J g0 0%nat i)) a)) in *.
    assert (Vg1 : forall i, (i < n)%nat -> fvalid (g1 i)) by (intros i Hi; apply fvalid_add; [auto|]; apply fvalid_mul; [apply fvalid_neg; auto|exact Va]).
    specialize (L (VF g1 Vg1)).
    assert (NF1 : F g1 0%nat <> S754_nan) by (intros H; rewrite H in L; destruct (F g0 0%nat) as [[]|[]| |[] ? ?]; discriminate L).
    destruct (IH x1 g1 x H1 Vg1 NF1 E) as (g & Hg & Vg' & L').
    exists g. split; [exact Hg|]. split; [exact Vg'|]. exact (fleb_trans _ _ _ (VF g Vg') (VF g1 Vg1) (VF g0 Vg) L' L).
Qed.

Hypothesis Fs : ffin sigma = true.
Variable rho : f64.
Hypothesis Vr : fvalid rho.
Hypothesis Hr : leb zero rho = true.

Lemma newton_dir_slope hess x v g : is_col x n g -> is_col v n (J g 0%nat) -> (forall i, (i < n)%nat -> fvalid (J g 0%nat i)) -> forall A, hess x = Ret A ->
  (forall b, is_col b n (fun i => neg (J g 0%nat i)) ->
     solve_vec A b = Ret Err \/ exists s S, solve_vec A b = Ret (Ok s) /\ is_col s n S /\ forall i, (i < n)%nat -> fvalid (S i)) ->
  exists d D, newton_dir rho hess x v = Ret d /\ is_col d n D /\ (forall i, (i < n)%nat -> fvalid (D i)) /\ np (sumn n (fun i => mul (J g 0%nat i) (D i))).
Proof.
  intros Hx Hv VJg A EA HA. pose proof (vneg_gen n v _ Hv) as Hnv. unfold newton_dir. rewrite EA. cbn [bind].
  assert (HG : exists d D, Ret (vneg v) = Ret d /\ is_col d n D /\ (forall i, (i < n)%nat -> fvalid (D i)) /\ np (sumn n (fun i => mul (J g 0%nat i) (D i)))).
  { eexists _, _. split; [reflexivity|]. split; [exact Hnv|]. split; [intros i Hi; apply fvalid_neg; auto|]. apply sum_np. intros i _.
    destruct (nn_or_np (J g 0%nat i)) as [H|H]; [apply mul_nn_np; [exact H|now apply neg_nn]|apply mul_np_nn; [exact H|now apply neg_np]]. }
  destruct (HA _ Hnv) as [E|(s & S & E & HS & VS)]; rewrite E; cbn [bind]; [exact HG|].
  rewrite (vdotp_spec v v n _ _ Hn Hv Hv), (vdotp_spec v s n _ _ Hn Hv HS). cbn [bind].
  match goal with |- context [if ?c then _ else _] => destruct c eqn:L end; [|exact HG].
  exists s, S. split; [reflexivity|]. split; [exact HS|]. split; [exact VS|]. right.
  match type of L with leb _ ?b = true => set (b0 := b) in L end.
  assert (Nb : np b0). { apply mul_np_nn; [apply neg_nn; right; exact Hr|]. apply sum_nn. intros i _. destruct (nn_or_np (J g 0%nat i)) as [H|H]; [apply mul_nn_nn|apply mul_np_np]; exact H. }
  destruct Nb as [Nb|Nb]; [exfalso; rewrite Nb in L; match type of L with leb ?a _ = _ => destruct a as [[]|[]| |[] ? ?]; discriminate L end|].
  assert (Vz : fvalid (zero : f64)) by reflexivity. refine (fleb_trans _ b0 _ _ _ Vz L Nb).
  - apply fsum_valid. intros i Hi. apply fvalid_mul; auto.
  - apply fvalid_mul; [apply fvalid_neg, Vr|]. apply fsum_valid. intros i Hi. apply fvalid_mul; auto.
Qed.

Lemma newton_min_descent fuel hess : forall iters x0 g0 x, is_col x0 n g0 -> (forall i, (i < n)%nat -> fvalid (g0 i)) ->
  (forall k x g, (k <= iters)%nat -> newton_min k fuel sigma rho func jac hess x0 = Ret (Some x) -> is_col x n g -> F g 0%nat <> S754_nan) ->
  (forall k x g, (k < iters)%nat -> newton_min k fuel sigma rho func jac hess x0 = Ret (Some x) -> is_col x n g ->
     (exists A, hess x = Ret A /\ forall b, is_col b n (fun i => neg (J g 0%nat i)) ->
       solve_vec A b = Ret Err \/ exists s S, solve_vec A b = Ret (Ok s) /\ is_col s n S /\ forall i, (i < n)%nat -> fvalid (S i)) /\
     forall v d t, grad_at jac x = Ret v -> newton_dir rho hess x v = Ret d -> vdotp v d = Ret t -> ffin t = true) ->
  newton_min iters fuel sigma rho func jac hess x0 = Ret (Some x) ->
  exists g, is_col x n g /\ (forall i, (i < n)%nat -> fvalid (g i)) /\ leb (F g 0%nat) (F g0 0%nat) = true.
Proof.
  induction iters as [|iters IH]; intros x0 g0 x Hx Vg HN HG E.
  - injection E as <-. exists g0. split; [exact Hx|]. split; [exact Vg|]. apply fleb_refl, (HN 0%nat x0 g0 (le_n _) eq_refl Hx).
  - destruct (HG 0%nat x0 g0 ltac:(lia) eq_refl Hx) as [(A & EA & HA) HT].
    destruct (grad_at_spec jac n p J x0 g0 HJ Hp Hn Hx) as (v & Ev & Hv).
    destruct (newton_dir_slope hess x0 v g0 Hx Hv (VJ g0 Vg) A EA HA) as (d & D & Ed & HD & VD & Np).
    pose proof (HT v d _ Ev Ed (vdotp_spec v d n _ _ Hn Hv HD)) as Ft.
    destruct Np as [Np|Np]; [rewrite Np in Ft; discriminate Ft|].
    destruct (vadd_col x0 _ n g0 _ Hx (vmul_scalar_col d n _ one HD)) as (r & Er & Hr').
    assert (Vt : fvalid (sumn n (fun i => mul (J g0 0%nat i) (D i)))) by (apply fsum_valid; intros i Hi; apply fvalid_mul; auto).
    assert (Hstep : forall k, newton_min (S k) fuel sigma rho func jac hess x0 =
      match newton_search fuel sigma func x0 d (F g0 0%nat) (sumn n (fun i => mul (J g0 0%nat i) (D i))) one (F (fun i => add (g0 i) (mul (D i) one)) 0%nat) with
      | Ret (Some a) => let! x := vadd x0 (vmul_scalar d a) in newton_min k fuel sigma rho func jac hess x
      | Ret None => Ret None | Panic => Panic end).
    { intros k. cbn [newton_min]. rewrite Ev. cbn [bind]. rewrite Ed. cbn [bind]. rewrite Er. cbn [bind].
      rewrite (eval0_spec func n m F r _ HF Hm Hr'). cbn [bind]. rewrite (eval0_spec func n m F x0 g0 HF Hm Hx). cbn [bind].
      rewrite (vdotp_spec v d n _ _ Hn Hv HD). cbn [bind]. destruct (newton_search _ _ _ _ _ _ _ _) as [[a|]|]; reflexivity. }
    rewrite Hstep in E. destruct one_step as (V1 & F1 & B1).
    destruct (newton_search _ _ _ _ _ _ _ _) as [[a|]|] eqn:Ea in E; try discriminate E.
    destruct (newton_search_descent pw func n m F HF Hm sigma Vs Hs Fs x0 d g0 D _ Hx HD (VF g0 Vg) (HN 0%nat x0 g0 ltac:(lia) eq_refl Hx) Vt Ft Np fuel one V1 F1 B1 a Ea) as [Va L].
    destruct (vadd_col x0 _ n g0 _ Hx (vmul_scalar_col d n _ a HD)) as (x1 & E1 & H1). rewrite E1 in E. cbn [bind] in E.
    set (g1 := fun i => add (g0 i) (mul (D i) a)) in *.
    assert (Vg1 : forall i, (i < n)%nat -> fvalid (g1 i)) by (intros i Hi; apply fvalid_add; [auto|]; apply fvalid_mul; [auto|exact Va]).
    
    assert (Hone : forall k, newton_min (S k) fuel sigma rho func jac hess x0 = newton_min k fuel sigma rho func jac hess x1) by (intros k; rewrite Hstep, Ea, E1; reflexivity).
    specialize (L (VF g1 Vg1) (HN 1%nat x1 g1 ltac:(lia) (Hone 0%nat) H1)).
    destruct (IH x1 g1 x H1 Vg1) as (g & Hg & Vg' & L').
    + intros k y h Hk Ey Hy. apply (HN (S k) y h ltac:(lia)); [|exact Hy]. rewrite Hone. exact Ey.
    + intros k y h Hk Ey Hy. apply (HG (S k) y h ltac:(lia)); [|exact Hy]. rewrite Hone. exact Ey.
    + exact E.
    + exists g. split; [exact Hg|]. split; [exact Vg'|]. exact (fleb_trans _ _ _ (VF g Vg') (VF g1 Vg1) (VF g0 Vg) L' L).
Qed.
End Run.
