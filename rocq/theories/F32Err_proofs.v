(** Rounding-error analysis of the binary32 algorithms: sums, products, substitution, LU. *)
From Coq Require Import ZArith Reals Lra Lia Bool Arith SpecFloat.
From Flocq Require Import Core IEEE754.BinarySingleNaN Relative Plus_error.
From Verif Require Import Outcome Scalar F32Flocq Sums.
From Verif Require Import F32_model.
#[local] Existing Instance F32_ops.
#[local] Existing Instance F32_zops.
Local Open Scope R_scope.

Lemma uro_pos : 0 < uro. Proof. apply bpow_gt_0. Qed.
Lemma eta32_pos : 0 < eta32. Proof. apply bpow_gt_0. Qed.
Lemma uro_half : / 2 * bpow radix2 (Z.opp 24 + 1) = uro.
Proof. unfold uro. change (Z.opp 24 + 1)%Z with (-24 + 1)%Z. rewrite (bpow_plus radix2 (-24) 1). change (bpow radix2 1) with 2. field. Qed.
Lemma uro_val : uro = / 16777216.
Proof. reflexivity. Qed.

(** Rounding of a real number. *)
Lemma rnd_small z : Rabs z < bpow radix2 (-149 + 24 - 1) -> Rabs (rnd32 z - z) <= eta32.
Proof.
  intro H. eapply Rle_trans; [apply error_le_half_ulp; typeclasses eauto|].
  rewrite ulp_FLT_small; [|reflexivity|]. 2: eapply Rlt_le_trans; [exact H|apply bpow_le; lia].
  unfold eta32. replace (-150)%Z with (-1 + -149)%Z by reflexivity. rewrite bpow_plus. simpl (bpow radix2 (-1)). lra.
Qed.
Lemma rnd_err1 z : Rabs (rnd32 z - z) <= uro * Rabs z + eta32.
Proof.
  pose proof eta32_pos. pose proof uro_pos. pose proof (Rabs_pos z).
  destruct (Rlt_or_le (Rabs z) (bpow radix2 (-149 + 24 - 1))) as [H2|H2].
  - pose proof (rnd_small z H2). nra.
  - pose proof (relative_error_N_FLT radix2 (-149) 24 eq_refl (fun x => negb (Z.even x)) z H2) as E. rewrite uro_half in E. lra.
Qed.
Lemma rnd_err2 z : Rabs (rnd32 z - z) <= uro * Rabs (rnd32 z) + eta32.
Proof.
  pose proof eta32_pos. pose proof uro_pos. pose proof (Rabs_pos (rnd32 z)).
  destruct (Rlt_or_le (Rabs z) (bpow radix2 (-149 + 24 - 1))) as [H2|H2].
  - pose proof (rnd_small z H2). nra.
  - pose proof (relative_error_N_FLT_round radix2 (-149) 24 eq_refl (fun x => negb (Z.even x)) z H2) as E. rewrite uro_half in E. lra.
Qed.
Notation fmt32 := (generic_format radix2 (FLT_exp (-149) 24)).
Lemma rnd_add1 x y : fmt32 x -> fmt32 y -> Rabs (rnd32 (x + y) - (x + y)) <= uro * Rabs (x + y).
Proof.
  intros Hx Hy. destruct (Rlt_or_le (Rabs (x + y)) (bpow radix2 (-149 + 24))) as [H|H].
  - rewrite round_generic; [|typeclasses eauto|]. 2: apply FLT_format_plus_small; [reflexivity|assumption..|left; exact H].
    rewrite Rminus_diag_eq, Rabs_R0 by reflexivity. pose proof uro_pos. pose proof (Rabs_pos (x + y)). nra.
  - pose proof (relative_error_N_FLT radix2 (-149) 24 eq_refl (fun x => negb (Z.even x)) (x + y)) as E. rewrite uro_half in E. apply E.
    eapply Rle_trans; [apply bpow_le|exact H]. lia.
Qed.
Lemma rnd_add2 x y : fmt32 x -> fmt32 y -> Rabs (rnd32 (x + y) - (x + y)) <= uro * Rabs (rnd32 (x + y)).
Proof.
  intros Hx Hy. destruct (Rlt_or_le (Rabs (x + y)) (bpow radix2 (-149 + 24))) as [H|H].
  - rewrite round_generic; [|typeclasses eauto|]. 2: apply FLT_format_plus_small; [reflexivity|assumption..|left; exact H].
    rewrite Rminus_diag_eq, Rabs_R0 by reflexivity. pose proof uro_pos. pose proof (Rabs_pos (x + y)). nra.
  - pose proof (relative_error_N_FLT_round radix2 (-149) 24 eq_refl (fun x => negb (Z.even x)) (x + y)) as E. rewrite uro_half in E. apply E.
    eapply Rle_trans; [apply bpow_le|exact H]. lia.
Qed.

(** Floats. *)
Lemma fmt_fval x : fvalid x -> fmt32 (fval x).
Proof. intro H. rewrite <- (B2SF_toB x H), fval_B. apply generic_format_B2R. Qed.

Ltac lift x y Hx Hy := rewrite <- (B2SF_toB x Hx), <- (B2SF_toB y Hy) in *.
Lemma B2SF_inf (b : b32) s : B2SF b = S754_infinity s -> is_finite b = false.
Proof. destruct b; simpl; congruence. Qed.

(** A finite result comes from finite operands without overflow. *)
Lemma fadd_fin x y : fvalid x -> fvalid y -> ffin (add x y) = true ->
  ffin x = true /\ ffin y = true /\ fval (add x y) = rnd32 (fval x + fval y).
Proof.
  intros Hx Hy F. change (add x y) with (SFadd 24 128 x y) in *. lift x y Hx Hy. rewrite SFadd_equiv, !ffin_B, !fval_B in *.
  assert (Fx : is_finite (toB x Hx) = true /\ is_finite (toB y Hy) = true).
  { generalize dependent (toB x Hx). generalize dependent (toB y Hy). intros b a E. destruct a as [| | |], b as [| | |]; cbn in E |- *; try (split; reflexivity); try discriminate. destruct (Bool.eqb _ _); discriminate. }
  destruct Fx as [Fx Fy]. split; [exact Fx|]. split; [exact Fy|].
  pose proof (Bplus_correct 24 128 Hprec24 Hmax24 mode_NE _ _ Fx Fy) as H. rewrite rnd_eq in H.
  destruct (Rlt_bool _ _); [exact (proj1 H)|]. destruct H as [H _]. exfalso. change (binary_overflow 24 128 mode_NE (Bsign (toB x Hx))) with (S754_infinity (Bsign (toB x Hx))) in H.
  apply B2SF_inf in H. congruence.
Qed.
Lemma fsub_fin x y : fvalid x -> fvalid y -> ffin (sub x y) = true ->
  ffin x = true /\ ffin y = true /\ fval (sub x y) = rnd32 (fval x - fval y).
Proof.
  intros Hx Hy F. change (sub x y) with (SFsub 24 128 x y) in *. lift x y Hx Hy. rewrite SFsub_equiv, !ffin_B, !fval_B in *.
  assert (Fx : is_finite (toB x Hx) = true /\ is_finite (toB y Hy) = true).
  { generalize dependent (toB x Hx). generalize dependent (toB y Hy). intros b a E. destruct a as [| | |], b as [| | |]; cbn in E |- *; try (split; reflexivity); try discriminate. destruct (Bool.eqb _ _); discriminate. }
  destruct Fx as [Fx Fy]. split; [exact Fx|]. split; [exact Fy|].
  pose proof (Bminus_correct 24 128 Hprec24 Hmax24 mode_NE _ _ Fx Fy) as H. rewrite rnd_eq in H.
  destruct (Rlt_bool _ _); [exact (proj1 H)|]. destruct H as [H _]. exfalso. change (binary_overflow 24 128 mode_NE (Bsign (toB x Hx))) with (S754_infinity (Bsign (toB x Hx))) in H.
  apply B2SF_inf in H. congruence.
Qed.
Lemma fmul_fin x y : fvalid x -> fvalid y -> ffin (mul x y) = true ->
  ffin x = true /\ ffin y = true /\ fval (mul x y) = rnd32 (fval x * fval y).
Proof.
  intros Hx Hy F. change (mul x y) with (SFmul 24 128 x y) in *. lift x y Hx Hy. rewrite SFmul_equiv, !ffin_B, !fval_B in *.
  assert (Fx : is_finite (toB x Hx) = true /\ is_finite (toB y Hy) = true).
  { generalize dependent (toB x Hx). generalize dependent (toB y Hy). intros b a E. destruct a as [| | |], b as [| | |]; cbn in E |- *; try (split; reflexivity); try discriminate. }
  destruct Fx as [Fx Fy]. split; [exact Fx|]. split; [exact Fy|].
  pose proof (Bmult_correct 24 128 Hprec24 Hmax24 mode_NE (toB x Hx) (toB y Hy)) as H. rewrite rnd_eq in H.
  destruct (Rlt_bool _ _); [exact (proj1 H)|]. exfalso.
  change (binary_overflow 24 128 mode_NE ?s) with (S754_infinity s) in H. apply B2SF_inf in H. congruence.
Qed.
Lemma fdiv_fin x y : fvalid x -> fvalid y -> ffin y = true -> ffin (div x y) = true ->
  ffin x = true /\ fval y <> 0 /\ fval (div x y) = rnd32 (fval x / fval y).
Proof.
  intros Hx Hy G F. change (div x y) with (SFdiv 24 128 x y) in *. lift x y Hx Hy. rewrite SFdiv_equiv, !ffin_B, !fval_B in *.
  assert (Fx : is_finite (toB x Hx) = true /\ B2R (toB y Hy) <> 0).
  { generalize dependent (toB x Hx). generalize dependent (toB y Hy). intros b Gb a E. destruct a as [| | |], b as [| | |sb mb eb]; cbn in E, Gb |- *; try discriminate; (split; [reflexivity|]).
    all: apply F2R_neq_0; simpl; destruct sb; discriminate. }
  destruct Fx as [Fx Fy]. split; [exact Fx|]. split; [exact Fy|].
  pose proof (Bdiv_correct 24 128 Hprec24 Hmax24 mode_NE (toB x Hx) (toB y Hy) Fy) as H. rewrite rnd_eq in H.
  destruct (Rlt_bool _ _); [exact (proj1 H)|]. exfalso.
  change (binary_overflow 24 128 mode_NE ?s) with (S754_infinity s) in H. apply B2SF_inf in H. congruence.
Qed.

(** The standard model of floating-point arithmetic, both forward and backward. *)
Lemma fadd_err x y : fvalid x -> fvalid y -> ffin (add x y) = true ->
  ffin x = true /\ ffin y = true /\ Rabs (fval (add x y) - (fval x + fval y)) <= uro * Rabs (fval x + fval y) /\
  Rabs (fval (add x y) - (fval x + fval y)) <= uro * Rabs (fval (add x y)).
Proof.
  intros Hx Hy F. destruct (fadd_fin x y Hx Hy F) as (Fx & Fy & E). rewrite E. split; [exact Fx|]. split; [exact Fy|].
  split; [apply rnd_add1|apply rnd_add2]; now apply fmt_fval.
Qed.
Lemma fsub_err x y : fvalid x -> fvalid y -> ffin (sub x y) = true ->
  ffin x = true /\ ffin y = true /\ Rabs (fval (sub x y) - (fval x - fval y)) <= uro * Rabs (fval x - fval y) /\
  Rabs (fval (sub x y) - (fval x - fval y)) <= uro * Rabs (fval (sub x y)).
Proof.
  intros Hx Hy F. destruct (fsub_fin x y Hx Hy F) as (Fx & Fy & E). rewrite E. split; [exact Fx|]. split; [exact Fy|].
  change (fval x - fval y) with (fval x + - fval y). split; [apply rnd_add1|apply rnd_add2]; try (apply generic_format_opp); now apply fmt_fval.
Qed.
Lemma fmul_err x y : fvalid x -> fvalid y -> ffin (mul x y) = true ->
  ffin x = true /\ ffin y = true /\ Rabs (fval (mul x y) - fval x * fval y) <= uro * Rabs (fval x * fval y) + eta32 /\
  Rabs (fval (mul x y) - fval x * fval y) <= uro * Rabs (fval (mul x y)) + eta32.
Proof.
  intros Hx Hy F. destruct (fmul_fin x y Hx Hy F) as (Fx & Fy & E). rewrite E. split; [exact Fx|]. split; [exact Fy|].
  split; [apply rnd_err1|apply rnd_err2].
Qed.
Lemma fdiv_err x y : fvalid x -> fvalid y -> ffin y = true -> ffin (div x y) = true ->
  ffin x = true /\ fval y <> 0 /\ Rabs (fval (div x y) - fval x / fval y) <= uro * Rabs (fval x / fval y) + eta32 /\
  Rabs (fval (div x y) - fval x / fval y) <= uro * Rabs (fval (div x y)) + eta32.
Proof.
  intros Hx Hy Fy F. destruct (fdiv_fin x y Hx Hy Fy F) as (Fx & Ny & E). rewrite E. split; [exact Fx|]. split; [exact Ny|].
  split; [apply rnd_err1|apply rnd_err2].
Qed.
Lemma fadd_0_l x : fvalid x -> ffin (add zero x) = true -> ffin x = true /\ fval (add zero x) = fval x.
Proof.
  intros Hx F. destruct (fadd_fin zero x) as (_ & Fx & E); [reflexivity|exact Hx|exact F|]. split; [exact Fx|]. rewrite E.
  change (fval zero) with 0. rewrite Rplus_0_l. apply round_generic; [typeclasses eauto|]. now apply fmt_fval.
Qed.

(** Accumulated relative error of n operations. *)
Lemma gam_pow n : 1 <= (1 + uro) ^ n.
Proof. apply pow_R1_Rle. pose proof uro_pos. lra. Qed.
Lemma gam_S n : gam (S n) = gam n * (1 + uro) + uro. Proof. unfold gam. simpl. ring. Qed.
Lemma gam_pos n : 0 <= gam n. Proof. unfold gam. pose proof (gam_pow n). lra. Qed.
Lemma gam_mono m n : (m <= n)%nat -> gam m <= gam n.
Proof. intro H. unfold gam. apply Rplus_le_compat_r, Rle_pow; [|exact H]. pose proof uro_pos. lra. Qed.
(** (1+u)^n - 1 <= n u / (1 - n u). *)
Lemma gam_le n : INR n * uro < 1 -> gam n <= INR n * uro / (1 - INR n * uro).
Proof.
  pose proof uro_pos as U. induction n as [|n IH]; intro H.
  - unfold gam. simpl. unfold Rdiv. rewrite !Rmult_0_l. lra.
  - rewrite gam_S. rewrite S_INR in *. assert (Hn : 0 <= INR n) by apply pos_INR.
    specialize (IH ltac:(nra)). set (t := INR n) in *. assert (D1 : 0 < 1 - t * uro) by nra. assert (D2 : 0 < 1 - (t + 1) * uro) by lra.
    apply Rle_trans with (t * uro / (1 - t * uro) * (1 + uro) + uro); [apply Rplus_le_compat_r, Rmult_le_compat_r; lra|].
    apply (Rmult_le_reg_r ((1 - t * uro) * (1 - (t + 1) * uro))); [nra|]. field_simplify; [|lra|lra]. nra.
Qed.

Notation rsum := (@sumn R R_ops).
Lemma rsum_S n f : rsum (S n) f = rsum n f + f n. Proof. reflexivity. Qed.
Lemma rsum_pos n f : (forall l, (l < n)%nat -> 0 <= f l) -> 0 <= rsum n f.
Proof. induction n; intro H; [apply Rle_refl|]. rewrite rsum_S. pose proof (H n ltac:(lia)). pose proof (IHn ltac:(auto)). lra. Qed.
Lemma rsum_abs n f : Rabs (rsum n f) <= rsum n (fun l => Rabs (f l)).
Proof. induction n; [simpl; rewrite Rabs_R0; lra|]. rewrite !rsum_S. eapply Rle_trans; [apply Rabs_triang|]. lra. Qed.

Lemma fsum_valid n (f : nat -> f32) : (forall l, (l < n)%nat -> fvalid (f l)) -> fvalid (sumn n f).
Proof. induction n; intro H; [reflexivity|]. cbn [sumn]. apply fvalid_add; auto. Qed.

(** Left-to-right sum of n floats. *)
Lemma fsum_err n (f : nat -> f32) : (forall l, (l < n)%nat -> fvalid (f l)) -> ffin (sumn n f) = true ->
  (forall l, (l < n)%nat -> ffin (f l) = true) /\
  Rabs (fval (sumn n f) - rsum n (fun l => fval (f l))) <= gam (n - 1) * rsum n (fun l => Rabs (fval (f l))).
Proof.
  pose proof uro_pos as U. induction n as [|n IH]; intros V F.
  - split; [lia|]. simpl. change (fval zero) with 0. rewrite Rminus_0_r, Rabs_R0. lra.
  - cbn [sumn] in F. assert (Vn : fvalid (f n)) by auto. assert (Vs : fvalid (sumn n f)) by (apply fsum_valid; auto).
    destruct n as [|n].
    + destruct (fadd_0_l (f 0%nat) Vn F) as [Ff E]. split. { intros l Hl. now replace l with 0%nat by lia. }
      cbn [sumn]. rewrite E. change (@zero R R_ops) with 0. change (@add R R_ops) with Rplus. rewrite !Rplus_0_l, Rminus_diag_eq, Rabs_R0 by reflexivity.
      unfold gam. simpl. lra.
    + destruct (fadd_err _ _ Vs Vn F) as (F1 & F2 & E & _). destruct (IH ltac:(auto) F1) as [G B]. split.
      { intros l Hl. destruct (Nat.eq_dec l (S n)) as [->|]; [exact F2|apply G; lia]. }
      rewrite (rsum_S (S n) (fun l => fval (f l))), (rsum_S (S n) (fun l => Rabs (fval (f l)))).
      replace (S (S n) - 1)%nat with (S n) by lia. replace (S n - 1)%nat with n in B by lia.
      change (sumn (S (S n)) f) with (add (sumn (S n) f) (f (S n))). pose proof (rsum_abs (S n) (fun l => fval (f l))) as A.
      set (s := fval (sumn (S n) f)) in *. set (t := rsum (S n) (fun l => fval (f l))) in *. set (a := rsum (S n) (fun l => Rabs (fval (f l)))) in *.
      set (p := fval (f (S n))) in *. set (r := fval (add _ _)) in *.
      assert (E2 : Rabs (s + p) <= Rabs (s - t) + a + Rabs p) by (unfold Rabs in *; repeat destruct Rcase_abs; lra).
      assert (E3 : Rabs (r - (t + p)) <= Rabs (r - (s + p)) + Rabs (s - t)) by (unfold Rabs in *; repeat destruct Rcase_abs; lra).
      rewrite gam_S. pose proof (gam_pos n). pose proof (Rabs_pos p).
      assert (0 <= a) by (pose proof (Rabs_pos t); lra). set (g := gam n) in *.
      assert (uro * Rabs (s + p) <= uro * (g * a + a + Rabs p)) by (apply Rmult_le_compat_l; lra). assert (0 <= g * (1 + uro) * Rabs p) by (apply Rmult_le_pos; nra). nra.
Qed.

(** Left-to-right dot product. *)
Lemma fdot_err n (x y : nat -> f32) : (forall l, (l < n)%nat -> fvalid (x l) /\ fvalid (y l)) ->
  ffin (sumn n (fun l => mul (x l) (y l))) = true ->
  (forall l, (l < n)%nat -> ffin (x l) = true /\ ffin (y l) = true) /\
  Rabs (fval (sumn n (fun l => mul (x l) (y l))) - rsum n (fun l => fval (x l) * fval (y l))) <=
    gam n * rsum n (fun l => Rabs (fval (x l) * fval (y l))) + INR n * eta32 * (1 + uro) ^ n.
Proof.
  pose proof uro_pos as U. pose proof eta32_pos as H0. intros V F.
  assert (VM : forall l, (l < n)%nat -> fvalid (mul (x l) (y l))) by (intros l Hl; destruct (V l Hl); now apply fvalid_mul).
  destruct (fsum_err n (fun l => mul (x l) (y l)) VM F) as [G B].
  assert (M : forall l, (l < n)%nat -> ffin (x l) = true /\ ffin (y l) = true /\ Rabs (fval (mul (x l) (y l)) - fval (x l) * fval (y l)) <= uro * Rabs (fval (x l) * fval (y l)) + eta32).
  { intros l Hl. destruct (V l Hl) as [V1 V2]. destruct (fmul_err _ _ V1 V2 (G l Hl)) as (A1 & A2 & A3 & _). auto. }
  split. { intros l Hl. destruct (M l Hl) as (A1 & A2 & _). auto. }
  assert (K : forall m, (m <= n)%nat ->
    Rabs (rsum m (fun l => fval (mul (x l) (y l))) - rsum m (fun l => fval (x l) * fval (y l))) <= uro * rsum m (fun l => Rabs (fval (x l) * fval (y l))) + INR m * eta32 /\
    rsum m (fun l => Rabs (fval (mul (x l) (y l)))) <= (1 + uro) * rsum m (fun l => Rabs (fval (x l) * fval (y l))) + INR m * eta32).
  { induction m; intro Hm. { simpl. rewrite Rminus_0_r, Rabs_R0. lra. }
    destruct (IHm ltac:(lia)) as [I1 I2]. destruct (M m Hm) as (_ & _ & A). rewrite !rsum_S, S_INR.
    set (p := fval (mul (x m) (y m))) in *. set (q := fval (x m) * fval (y m)) in *. set (s := rsum m (fun l => fval (mul (x l) (y l)))) in *.
    set (t := rsum m (fun l => fval (x l) * fval (y l))) in *. split.
    - replace (s + p - (t + q)) with ((s - t) + (p - q)) by ring. eapply Rle_trans; [apply Rabs_triang|]. lra.
    - assert (Rabs p <= Rabs (p - q) + Rabs q) by (unfold Rabs in *; repeat destruct Rcase_abs; lra). lra. }
  destruct (K n (Nat.le_refl n)) as [K1 K2]. set (A := rsum n (fun l => Rabs (fval (x l) * fval (y l)))) in *.
  assert (HA : 0 <= A) by (apply rsum_pos; intros; apply Rabs_pos).
  destruct n as [|n]. { simpl in *. change (fval zero) with 0. rewrite Rminus_0_r, Rabs_R0. unfold A, gam. simpl. lra. }
  replace (S n - 1)%nat with n in B by lia.
  set (s := fval _) in *. set (m := rsum (S n) (fun l => fval (mul (x l) (y l)))) in *. set (t := rsum (S n) (fun l => fval (x l) * fval (y l))) in *.
  set (am := rsum (S n) (fun l => Rabs (fval (mul (x l) (y l))))) in *.
  replace (s - t) with ((s - m) + (m - t)) by ring. eapply Rle_trans; [apply Rabs_triang|].
  rewrite gam_S. assert (P1 : (1 + uro) ^ S n = (1 + gam n) * (1 + uro)) by (unfold gam; simpl; ring). rewrite P1.
  pose proof (gam_pos n). assert (0 <= INR (S n) * eta32) by (apply Rmult_le_pos; [apply pos_INR|lra]). set (h := INR (S n) * eta32) in *. set (g := gam n) in *.
  assert (g * am <= g * ((1 + uro) * A + h)) by (apply Rmult_le_compat_l; lra). assert (0 <= h * ((1 + g) * uro)) by (apply Rmult_le_pos; nra). nra.
Qed.

(** One elimination step: c' = fl(c - fl(a x)). *)
Lemma elim_err c a x : fvalid c -> fvalid a -> fvalid x -> ffin (sub c (mul a x)) = true ->
  ffin c = true /\ ffin a = true /\ ffin x = true /\
  forall k r S, Rabs (r - fval c) <= gam k * (Rabs (fval c) + S) + INR k * eta32 * (1 + uro) ^ k -> 0 <= S ->
  Rabs (r - fval (sub c (mul a x)) - fval a * fval x) <=
    gam (1 + k) * (Rabs (fval (sub c (mul a x))) + (S + Rabs (fval a * fval x))) + INR (1 + k) * eta32 * (1 + uro) ^ (1 + k).
Proof.
  pose proof uro_pos as U. pose proof eta32_pos as H0. intros Vc Va Vx F.
  assert (Vm : fvalid (mul a x)) by now apply fvalid_mul.
  destruct (fsub_err _ _ Vc Vm F) as (Fc & Fm & _ & E1). destruct (fmul_err _ _ Va Vx Fm) as (Fa & Fx & E2 & _).
  split; [exact Fc|]. split; [exact Fa|]. split; [exact Fx|]. intros k r S I HS.
  set (c' := fval (sub c (mul a x))) in *. set (p := fval (mul a x)) in *. set (q := fval a * fval x) in *. set (v := fval c) in *.
  assert (K : Rabs v <= (1 + uro) * Rabs c' + (1 + uro) * Rabs q + eta32).
  { assert (Rabs v <= Rabs (c' - (v - p)) + Rabs c' + (Rabs (p - q) + Rabs q)) by (unfold Rabs in *; repeat destruct Rcase_abs; lra). lra. }
  assert (L : Rabs (r - c' - q) <= Rabs (r - v) + Rabs (c' - (v - p)) + Rabs (p - q)) by (unfold Rabs in *; repeat destruct Rcase_abs; lra).
  change (1 + k)%nat with (Datatypes.S k). rewrite gam_S, S_INR. pose proof (gam_pos k) as G. assert (P1 : (1 + uro) ^ k = 1 + gam k) by (unfold gam; ring).
  assert (P2 : (1 + uro) ^ Datatypes.S k = (1 + gam k) * (1 + uro)) by (unfold gam; simpl; ring). rewrite P1 in I. rewrite P2.
  pose proof (Rabs_pos c'). pose proof (Rabs_pos q). pose proof (pos_INR k) as HK. set (g := gam k) in *. set (t := INR k) in *.
  assert (A1 : g * (Rabs v + S) <= g * ((1 + uro) * Rabs c' + (1 + uro) * Rabs q + eta32 + S)) by (apply Rmult_le_compat_l; lra).
  assert (A2 : t * eta32 * (1 + g) <= t * eta32 * ((1 + g) * (1 + uro))) by (apply Rmult_le_compat_l; nra).
  assert (A3 : eta32 * (1 + g) <= eta32 * ((1 + g) * (1 + uro))) by (apply Rmult_le_compat_l; nra).
  assert (A4 : 0 <= g * uro * S) by (apply Rmult_le_pos; nra). nra.
Qed.
Lemma fval_one : fval (@one f32 F32_ops) = 1.
Proof. unfold fval, SF2R, one, F32_ops, F2R. simpl. lra. Qed.
Lemma rnd_fval x : fvalid x -> rnd32 (fval x) = fval x.
Proof. intro H. apply round_generic; [typeclasses eauto|]. now apply fmt_fval. Qed.
Lemma rnd_0 : rnd32 0 = 0.
Proof. apply round_0. typeclasses eauto. Qed.
(** Selecting one component by a 0/1 row is exact. *)
Lemma fselect n (j : nat) (b : nat -> f32) : (j < n)%nat -> (forall l, (l < n)%nat -> fvalid (b l)) ->
  ffin (sumn n (fun l => mul (if (j =? l)%nat then one else zero) (b l))) = true ->
  (forall l, (l < n)%nat -> ffin (b l) = true) /\ fval (sumn n (fun l => mul (if (j =? l)%nat then one else zero) (b l))) = fval (b j).
Proof.
  intros Hj V F. set (e := fun l => if (j =? l)%nat then @one f32 F32_ops else zero).
  assert (Ve : forall l, fvalid (e l)) by (intro l; unfold e; destruct (j =? l)%nat; reflexivity).
  change (ffin (sumn n (fun l => mul (e l) (b l))) = true) in F. change (fun l => mul (if (j =? l)%nat then one else zero) (b l)) with (fun l => mul (e l) (b l)).
  assert (K : forall m, (m <= n)%nat -> ffin (sumn m (fun l => mul (e l) (b l))) = true -> (forall l, (l < m)%nat -> ffin (b l) = true) /\ fval (sumn m (fun l => mul (e l) (b l))) = if (j <? m)%nat then fval (b j) else 0).
  { induction m; intros Hm G. { split; [lia|reflexivity]. }
    cbn [sumn] in *. assert (Vm : forall l, (l < n)%nat -> fvalid (mul (e l) (b l))) by (intros l Hl; apply fvalid_mul; auto).
    assert (Vs : fvalid (sumn m (fun l => mul (e l) (b l)))) by (apply fsum_valid; intros; apply Vm; lia).
    destruct (fadd_fin _ _ Vs (Vm m Hm) G) as (G1 & G2 & E). destruct (IHm ltac:(lia) G1) as [I1 I2]. destruct (fmul_fin _ _ (Ve m) (V m Hm) G2) as (_ & Fb & E2).
    split. { intros l Hl. destruct (Nat.eq_dec l m) as [->|]; [exact Fb|apply I1; lia]. }
    rewrite E, I2, E2. unfold e. destruct (Nat.eqb_spec j m) as [->|Hne].
    - rewrite Nat.ltb_irrefl, (proj2 (Nat.ltb_lt m (S m))) by lia. rewrite fval_one, Rmult_1_l, rnd_fval, Rplus_0_l by auto. apply rnd_fval; auto.
    - change (fval zero) with 0. rewrite Rmult_0_l, rnd_0, Rplus_0_r. destruct (Nat.ltb_spec j m) as [H1|H1].
      + rewrite (proj2 (Nat.ltb_lt j (S m))) by lia. apply rnd_fval. apply V. lia.
      + rewrite (proj2 (Nat.ltb_ge j (S m))) by lia. apply rnd_0. }
  destruct (K n (Nat.le_refl n) F) as [K1 K2]. split; [exact K1|]. rewrite K2, (proj2 (Nat.ltb_lt j n) Hj). reflexivity.
Qed.
