(** The binary32 operations of [F32_ops] are correctly rounded: link between stdlib [SpecFloat] and
    Flocq's [BinarySingleNaN]. *)
From Coq Require Import ZArith Reals Lra Lia Bool SpecFloat.
From Flocq Require Import Core IEEE754.BinarySingleNaN.
From Verif Require Import Scalar.
From Verif Require Export F32_spec.
From Verif Require Import F32_model.
#[local] Existing Instance F32_ops.
#[local] Existing Instance F32_zops.
Local Open Scope Z_scope.

Lemma Hprec24 : FLX.Prec_gt_0 24. Proof. reflexivity. Qed.
Lemma Hmax24 : Prec_lt_emax 24 128. Proof. reflexivity. Qed.
#[global] Existing Instance Hprec24.
#[global] Existing Instance Hmax24.
Notation b32 := (binary_float 24 128).
Notation fx := (SpecFloat.fexp 24 128).
Notation rnd32 := (round radix2 (FLT_exp (-149) 24) ZnearestE).

Lemma fexp_FLT e : fx e = FLT_exp (-149) 24 e.
Proof. unfold SpecFloat.fexp, FLT_exp, SpecFloat.emin. f_equal. Qed.
Lemma rnd_eq x : round radix2 fx (round_mode mode_NE) x = rnd32 x.
Proof. reflexivity. Qed.

Lemma rne_equiv s m l : round_nearest_even m l = choice_mode mode_NE s m l.
Proof. case l; [reflexivity|intro c]. case c; [|reflexivity..]. simpl. unfold Round.cond_incr. case Z.even; reflexivity. Qed.
Lemma round_aux_equiv sx mx ex lx : SpecFloat.binary_round_aux 24 128 sx mx ex lx = binary_round_aux 24 128 mode_NE sx mx ex lx.
Proof.
  unfold SpecFloat.binary_round_aux, binary_round_aux. set (mrse' := shr_fexp _ _ _). case mrse'; intros mrs' e'; simpl. rewrite (rne_equiv sx). reflexivity.
Qed.
Lemma round_equiv s m e : SpecFloat.binary_round 24 128 s m e = binary_round 24 128 mode_NE s m e.
Proof. unfold SpecFloat.binary_round, binary_round, shl_align_fexp. set (mez := shl_align _ _ _); case mez as [mz ez]. apply round_aux_equiv. Qed.
Lemma normalize_equiv m e szero : SpecFloat.binary_normalize 24 128 m e szero = B2SF (binary_normalize 24 128 Hprec24 Hmax24 mode_NE m e szero).
Proof. case m as [|p|p]; [reflexivity|simpl; rewrite B2SF_SF2B; apply round_equiv..]. Qed.

(** Valid floats are the images of Flocq's. *)
Definition toB (x : f32) (H : fvalid x) : b32 := SF2B x H.
Lemma B2SF_toB x H : B2SF (toB x H) = x.
Proof. apply B2SF_SF2B. Qed.
Lemma fvalid_B2SF (b : b32) : fvalid (B2SF b).
Proof. apply valid_binary_B2SF. Qed.

Lemma SFadd_equiv (x y : b32) : SFadd 24 128 (B2SF x) (B2SF y) = B2SF (Bplus mode_NE x y).
Proof.
  case x as [sx|sx| |sx mx ex Bx]; case y as [sy|sy| |sy my ey By];
    [now (trivial || (simpl; case Bool.eqb))..|].
  apply normalize_equiv.
Qed.
Lemma SFsub_equiv (x y : b32) : SFsub 24 128 (B2SF x) (B2SF y) = B2SF (Bminus mode_NE x y).
Proof.
  case x as [sx|sx| |sx mx ex Bx]; case y as [sy|sy| |sy my ey By];
    [now (trivial || (simpl; case Bool.eqb))..|].
  simpl. unfold Zminus. rewrite <- cond_Zopp_negb. apply normalize_equiv.
Qed.
Lemma SFmul_equiv (x y : b32) : SFmul 24 128 (B2SF x) (B2SF y) = B2SF (Bmult mode_NE x y).
Proof.
  case x as [sx|sx| |sx mx ex Bx]; case y as [sy|sy| |sy my ey By];
    [now (trivial || (simpl; case Bool.eqb))..|].
  simpl. rewrite B2SF_SF2B. apply round_aux_equiv.
Qed.
Lemma SFdiv_equiv (x y : b32) : SFdiv 24 128 (B2SF x) (B2SF y) = B2SF (Bdiv mode_NE x y).
Proof.
  case x as [sx|sx| |sx mx ex Bx]; case y as [sy|sy| |sy my ey By];
    [now (trivial || (simpl; case Bool.eqb))..|].
  simpl. rewrite B2SF_SF2B. set (melz := SFdiv_core_binary _ _ _ _ _ _). case melz as [[mz ez] lz]. apply round_aux_equiv.
Qed.

(** The operations preserve validity. *)
Lemma fvalid_lift2 (op : f32 -> f32 -> f32) (opB : b32 -> b32 -> b32) :
  (forall x y, op (B2SF x) (B2SF y) = B2SF (opB x y)) -> forall x y, fvalid x -> fvalid y -> fvalid (op x y).
Proof. intros H x y Hx Hy. rewrite <- (B2SF_toB x Hx), <- (B2SF_toB y Hy), H. apply fvalid_B2SF. Qed.
Lemma fvalid_add x y : fvalid x -> fvalid y -> fvalid (add x y). Proof. exact (fvalid_lift2 _ _ SFadd_equiv x y). Qed.
Lemma fvalid_sub x y : fvalid x -> fvalid y -> fvalid (sub x y). Proof. exact (fvalid_lift2 _ _ SFsub_equiv x y). Qed.
Lemma fvalid_mul x y : fvalid x -> fvalid y -> fvalid (mul x y). Proof. exact (fvalid_lift2 _ _ SFmul_equiv x y). Qed.
Lemma fvalid_div x y : fvalid x -> fvalid y -> fvalid (div x y). Proof. exact (fvalid_lift2 _ _ SFdiv_equiv x y). Qed.

(** Real value (zero for the non-finite ones) and finiteness. *)
Lemma fval_B (b : b32) : fval (B2SF b) = B2R b. Proof. destruct b; reflexivity. Qed.
Lemma ffin_B (b : b32) : ffin (B2SF b) = is_finite b. Proof. destruct b; reflexivity. Qed.

Definition no_overflow (v : R) : Prop := (Rabs (rnd32 v) < bpow radix2 128)%R.

Lemma fadd_round x y : fvalid x -> fvalid y -> ffin x = true -> ffin y = true -> no_overflow (fval x + fval y) ->
  fval (add x y) = rnd32 (fval x + fval y) /\ ffin (add x y) = true.
Proof.
  intros Hx Hy Fx Fy Hn. change (add x y) with (SFadd 24 128 x y).
  rewrite <- (B2SF_toB x Hx), <- (B2SF_toB y Hy) in *. rewrite SFadd_equiv, !fval_B, !ffin_B in *.
  pose proof (Bplus_correct 24 128 Hprec24 Hmax24 mode_NE _ _ Fx Fy) as H. rewrite rnd_eq in H.
  rewrite Rlt_bool_true in H by exact Hn. destruct H as (H1 & H2 & _). split; assumption.
Qed.
Lemma fsub_round x y : fvalid x -> fvalid y -> ffin x = true -> ffin y = true -> no_overflow (fval x - fval y) ->
  fval (sub x y) = rnd32 (fval x - fval y) /\ ffin (sub x y) = true.
Proof.
  intros Hx Hy Fx Fy Hn. change (sub x y) with (SFsub 24 128 x y).
  rewrite <- (B2SF_toB x Hx), <- (B2SF_toB y Hy) in *. rewrite SFsub_equiv, !fval_B, !ffin_B in *.
  pose proof (Bminus_correct 24 128 Hprec24 Hmax24 mode_NE _ _ Fx Fy) as H. rewrite rnd_eq in H.
  rewrite Rlt_bool_true in H by exact Hn. destruct H as (H1 & H2 & _). split; assumption.
Qed.
Lemma fmul_round x y : fvalid x -> fvalid y -> ffin x = true -> ffin y = true -> no_overflow (fval x * fval y) ->
  fval (mul x y) = rnd32 (fval x * fval y) /\ ffin (mul x y) = true.
Proof.
  intros Hx Hy Fx Fy Hn. change (mul x y) with (SFmul 24 128 x y).
  rewrite <- (B2SF_toB x Hx), <- (B2SF_toB y Hy) in *. rewrite SFmul_equiv, !fval_B, !ffin_B in *.
  pose proof (Bmult_correct 24 128 Hprec24 Hmax24 mode_NE (toB x Hx) (toB y Hy)) as H. rewrite rnd_eq in H.
  rewrite Rlt_bool_true in H by exact Hn. destruct H as (H1 & H2 & _). split; [assumption|]. rewrite H2, Fx, Fy. reflexivity.
Qed.
Lemma fdiv_round x y : fvalid x -> fvalid y -> ffin x = true -> ffin y = true -> fval y <> 0%R -> no_overflow (fval x / fval y) ->
  fval (div x y) = rnd32 (fval x / fval y) /\ ffin (div x y) = true.
Proof.
  intros Hx Hy Fx Fy Hz Hn. change (div x y) with (SFdiv 24 128 x y).
  rewrite <- (B2SF_toB x Hx), <- (B2SF_toB y Hy) in *. rewrite SFdiv_equiv, !fval_B, !ffin_B in *.
  pose proof (Bdiv_correct 24 128 Hprec24 Hmax24 mode_NE (toB x Hx) (toB y Hy) Hz) as H. rewrite rnd_eq in H.
  rewrite Rlt_bool_true in H by exact Hn. destruct H as (H1 & H2 & _). split; [assumption|]. rewrite H2, Fx. reflexivity.
Qed.

(** Conversion of an integer. *)
Lemma int_round (z : Z) : no_overflow (IZR z) ->
  let x := SpecFloat.binary_normalize 24 128 z 0 false in fvalid x /\ ffin x = true /\ fval x = rnd32 (IZR z).
Proof.
  intros Hn. cbv zeta. rewrite normalize_equiv. split; [apply fvalid_B2SF|]. rewrite ffin_B, fval_B.
  pose proof (binary_normalize_correct 24 128 Hprec24 Hmax24 mode_NE z 0 false) as H. cbv zeta in H. rewrite rnd_eq in H.
  replace (F2R (Float radix2 z 0)) with (IZR z) in H by (unfold F2R; simpl; ring).
  rewrite Rlt_bool_true in H by exact Hn. destruct H as (H1 & H2 & _). split; assumption.
Qed.
