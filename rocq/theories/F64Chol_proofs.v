(** Rounding errors of the Cholesky decomposition in binary64. *)
From Coq Require Import ZArith Reals Lra Lia Bool Arith List SpecFloat.
From Flocq Require Import Core IEEE754.BinarySingleNaN Relative.
From Verif Require Import Outcome Scalar RealOps Matrix_model Vector_model Decomp_model Matrix_spec Matrix_proofs F64Flocq Sums
  F64Err_proofs F64Lin_proofs Chol_proofs.
Import ListNotations.
Local Open Scope R_scope.

Lemma gam_plus a b : gam (a + b) = gam a * (1 + gam b) + gam b.
Proof. unfold gam. rewrite pow_add. ring. Qed.

(** a - fl(dot product) *)
Lemma subdot_err a m (x y : nat -> f64) : fvalid a -> (forall l, (l < m)%nat -> fvalid (x l) /\ fvalid (y l)) ->
  ffin (sub a (sumn m (fun l => mul (x l) (y l)))) = true ->
  ffin a = true /\
  Rabs (fval a - rsum m (fun l => fval (x l) * fval (y l)) - fval (sub a (sumn m (fun l => mul (x l) (y l))))) <=
    gam (S m) * (Rabs (fval (sub a (sumn m (fun l => mul (x l) (y l))))) + rsum m (fun l => Rabs (fval (x l) * fval (y l)))) + INR (S m) * eta64 * (1 + uro) ^ S m.
Proof.
  intros Va V F. pose proof uro_pos as U. pose proof eta64_pos as H0.
  assert (Vs : fvalid (sumn m (fun l => mul (x l) (y l)))). { apply fsum_valid. intros l Hl. destruct (V l Hl). now apply fvalid_mul. }
  destruct (fsub_err _ _ Va Vs F) as (Fa & Fs & _ & E). destruct (fdot_err m x y V Fs) as [_ B]. split; [exact Fa|].
  set (s := fval (sumn m _)) in *. set (c := fval (sub _ _)) in *. set (D := rsum m (fun l => fval (x l) * fval (y l))) in *. set (A := rsum m (fun l => Rabs (fval (x l) * fval (y l)))) in *.
  assert (HA : 0 <= A) by (apply rsum_pos; intros; apply Rabs_pos).
  assert (K : Rabs (fval a - D - c) <= Rabs (c - (fval a - s)) + Rabs (s - D)).
  { replace (fval a - D - c) with (- (c - (fval a - s)) + (s - D)) by ring. eapply Rle_trans; [apply Rabs_triang|]. rewrite Rabs_Ropp. lra. }
  rewrite gam_S. pose proof (gam_pos m) as G. pose proof (gam_pow m) as GP. pose proof (Rabs_pos c) as Hc. rewrite S_INR. change ((1 + uro) ^ S m) with ((1 + uro) * (1 + uro) ^ m).
  pose proof (pos_INR m) as Hm. set (g := gam m) in *. set (p := (1 + uro) ^ m) in *. set (N := INR m) in *.
  assert (L1 : uro * Rabs c <= (g * (1 + uro) + uro) * Rabs c) by (apply Rmult_le_compat_r; nra).
  assert (L2 : g * A <= (g * (1 + uro) + uro) * A) by (apply Rmult_le_compat_r; nra).
  assert (L3 : N * eta64 * p <= (N + 1) * eta64 * ((1 + uro) * p)).
  { apply Rmult_le_compat; [apply Rmult_le_pos; lra|lra|apply Rmult_le_compat_r; lra|nra]. } nra.
Qed.


Lemma sqrtstep_err k sq c : sqrt_acc k sq -> fvalid c -> ffin (sq c) = true ->
  ffin c = true /\
  forall m r S, Rabs (r - fval c) <= gam m * (Rabs (fval c) + S) + INR m * eta64 * (1 + uro) ^ m -> 0 <= S ->
  Rabs (r - fval (sq c) * fval (sq c)) <= gam (m + k) * (Rabs (fval (sq c) * fval (sq c)) + S) + INR m * eta64 * (1 + uro) ^ m.
Proof.
  intros H Vc F. destruct (H c Vc) as [_ H1]. destruct (H1 F) as [Fc E]. split; [exact Fc|]. intros m r S B HS. set (g := fval (sq c)) in *. set (v := fval c) in *.
  assert (Q : 0 <= g * g) by nra. rewrite (Rabs_pos_eq (g * g)) by exact Q. replace (g ^ 2) with (g * g) in E by ring.
  assert (L : Rabs v <= (1 + gam k) * (g * g)). { replace v with (g * g - (g * g - v)) by ring. eapply Rle_trans; [apply Rabs_triang|]. rewrite Rabs_Ropp, (Rabs_pos_eq (g * g)) by exact Q. lra. }
  assert (K : Rabs (r - g * g) <= Rabs (r - v) + Rabs (g * g - v)).
  { replace (r - g * g) with ((r - v) + - (g * g - v)) by ring. eapply Rle_trans; [apply Rabs_triang|]. rewrite Rabs_Ropp. lra. }
  rewrite gam_plus. pose proof (gam_pos m) as G1. pose proof (gam_pos k) as G2.
  assert (L1 : gam m * Rabs v <= gam m * ((1 + gam k) * (g * g))) by (apply Rmult_le_compat_l; assumption).
  assert (L2 : 0 <= gam m * gam k * S) by (apply Rmult_le_pos; [nra|exact HS]). assert (0 <= gam k * S) by nra. nra.
Qed.

Lemma chol_err pw k n (a g : nat -> nat -> f64) : sqrt_acc k (fun x => pw x (@half f64 (F64_pops pw))) ->
  (forall r c, (r < n)%nat -> (c < n)%nat -> @chol_at f64 F64_ops (F64_pops pw) a g r c) ->
  (forall r c, (r < n)%nat -> (c < n)%nat -> fvalid (a r c)) -> (forall r c, (r < n)%nat -> (c < n)%nat -> ffin (g r c) = true) ->
  forall r c, (r < n)%nat -> (c <= r)%nat ->
    Rabs (fval (a r c) - rsum n (fun l => fval (g r l) * fval (g c l))) <=
      gam (n + k + 1) * rsum n (fun l => Rabs (fval (g r l) * fval (g c l))) + (INR n + Rabs (fval (g c c))) * eta64 * (1 + uro) ^ n.
Proof.
  intros SQ H Va Fg r c Hr Hc. pose proof uro_pos as U. pose proof eta64_pos as H0.
  assert (Vg : forall c, (c < n)%nat -> forall r, (r < n)%nat -> fvalid (g r c)).
  { induction c0 as [c0 IH] using lt_wf_ind. intros Hc0. assert (D : fvalid (g c0 c0)).
    { rewrite (H c0 c0 Hc0 Hc0). rewrite Nat.ltb_irrefl, Nat.eqb_refl. cbn [tsqrt F64_pops]. apply SQ. apply fvalid_sub; [auto|]. apply fsum_valid. intros l Hl. apply fvalid_mul; apply IH; lia. }
    intros r0 Hr0. rewrite (H r0 c0 Hr0 Hc0). destruct (r0 <? c0)%nat eqn:E1; [reflexivity|]. destruct (r0 =? c0)%nat eqn:E2.
    - apply Nat.eqb_eq in E2. subst r0. rewrite (H c0 c0 Hc0 Hc0), Nat.ltb_irrefl, Nat.eqb_refl in D. exact D.
    - apply fvalid_div; [|exact D]. apply fvalid_sub; [auto|]. apply fsum_valid. intros l Hl. apply fvalid_mul; apply IH; lia. }
  assert (Z : forall i j, (i < n)%nat -> (j < n)%nat -> (i < j)%nat -> fval (g i j) = 0).
  { intros i j Hi Hj Hij. rewrite (H i j Hi Hj). apply Nat.ltb_lt in Hij. rewrite Hij. reflexivity. }
  assert (SP : forall f : nat -> R, (forall l, (l < n)%nat -> (c < l)%nat -> f l = 0) -> rsum n f = rsum c f + f c).
  { intros f Hf. rewrite <- rsum_S. replace n with (S c + (n - S c))%nat by lia. rewrite (sumn_split R_RingLaws).
    rewrite (sumn_zero_ext R_RingLaws (n - S c)); [change (@add R R_ops) with Rplus; change (@zero R R_ops) with 0; ring|]. intros l Hl. apply Hf; lia. }
  rewrite (SP (fun l => fval (g r l) * fval (g c l))) by (intros l Hl Hcl; rewrite (Z c l) by lia; ring).
  rewrite (SP (fun l => Rabs (fval (g r l) * fval (g c l)))) by (intros l Hl Hcl; rewrite (Z c l), Rmult_0_r, Rabs_R0 by lia; reflexivity).
  pose proof (H r c Hr ltac:(lia)) as E. unfold chol_at in E. replace (r <? c)%nat with false in E by (symmetry; apply Nat.ltb_ge; lia).
  pose proof (Fg r c Hr ltac:(lia)) as F. set (A := rsum c (fun l => Rabs (fval (g r l) * fval (g c l)))).
  assert (HA : 0 <= A) by (apply rsum_pos; intros; apply Rabs_pos).
  assert (M : forall q, 0 <= q -> forall m1, (m1 <= n + k + 1)%nat -> gam m1 * q <= gam (n + k + 1) * q) by (intros q Hq m1 Hm; apply Rmult_le_compat_r; [exact Hq|now apply gam_mono]).
  assert (PW : (1 + uro) ^ S c <= (1 + uro) ^ n) by (apply Rle_pow; [lra|lia]).
  assert (IN : INR (S c) <= INR n) by (apply le_INR; lia). pose proof (pos_INR (S c)) as IP. pose proof (gam_pow (S c)) as GP. pose proof (Rabs_pos (fval (g c c))) as HD.
  destruct (r =? c)%nat eqn:E1.
  - apply Nat.eqb_eq in E1. subst r. cbn [tsqrt F64_pops] in E. rewrite E in F.
    assert (Vc : fvalid (sub (a c c) (sumn c (fun l => mul (g c l) (g c l))))). { apply fvalid_sub; [auto|]. apply fsum_valid. intros l Hl. apply fvalid_mul; apply Vg; lia. }
    destruct (sqrtstep_err k (fun x => pw x (@half f64 (F64_pops pw))) _ SQ Vc F) as [Fc B].
    destruct (subdot_err (a c c) c (g c) (g c) (Va c c Hr Hr) ltac:(intros l Hl; split; apply Vg; lia) Fc) as [_ B1].
    specialize (B _ _ _ B1 HA). cbv beta in B. change (@half f64 (F64_pops pw)) with (S754_finite false 4503599627370496 (-53)) in B. rewrite <- E in B.
    specialize (M (A + Rabs (fval (g c c) * fval (g c c))) ltac:(pose proof (Rabs_pos (fval (g c c) * fval (g c c))); lra) (S c + k)%nat ltac:(lia)).
    assert (L : INR (S c) * eta64 * (1 + uro) ^ S c <= (INR n + Rabs (fval (g c c))) * eta64 * (1 + uro) ^ n).
    { apply Rmult_le_compat; [apply Rmult_le_pos; lra|lra|apply Rmult_le_compat_r; lra|exact PW]. }
    unfold A in *. replace (fval (a c c) - (rsum c (fun l => fval (g c l) * fval (g c l)) + fval (g c c) * fval (g c c))) with (fval (a c c) - rsum c (fun l => fval (g c l) * fval (g c l)) - fval (g c c) * fval (g c c)) by ring. lra.
  - apply Nat.eqb_neq in E1. rewrite E in F.
    assert (Vc : fvalid (sub (a r c) (sumn c (fun l => mul (g r l) (g c l))))). { apply fvalid_sub; [apply Va; lia|]. apply fsum_valid. intros l Hl. apply fvalid_mul; apply Vg; lia. }
    destruct (divstep_err _ _ Vc (Vg c ltac:(lia) c ltac:(lia)) (Fg c c ltac:(lia) ltac:(lia)) F) as (Fc & _ & B).
    destruct (subdot_err (a r c) c (g r) (g c) (Va r c Hr ltac:(lia)) ltac:(intros l Hl; split; apply Vg; lia) Fc) as [_ B1].
    specialize (B _ _ _ B1 HA). rewrite <- E in B. rewrite (Rmult_comm (fval (g c c))) in B.
    specialize (M (A + Rabs (fval (g r c) * fval (g c c))) ltac:(pose proof (Rabs_pos (fval (g r c) * fval (g c c))); lra) (1 + S c)%nat ltac:(lia)).
    assert (L : (INR (S c) + Rabs (fval (g c c))) * eta64 * (1 + uro) ^ S c <= (INR n + Rabs (fval (g c c))) * eta64 * (1 + uro) ^ n).
    { apply Rmult_le_compat; [apply Rmult_le_pos; lra|lra|apply Rmult_le_compat_r; lra|exact PW]. }
    unfold A in *. replace (fval (a r c) - (rsum c (fun l => fval (g r l) * fval (g c l)) + fval (g r c) * fval (g c c))) with (fval (a r c) - rsum c (fun l => fval (g r l) * fval (g c l)) - fval (g r c) * fval (g c c)) by ring. lra.
Qed.

(** The correctly rounded square root meets the hypothesis with k = 2. *)
Lemma SFsqrt_equiv (x : b64) : SFsqrt 53 1024 (B2SF x) = B2SF (Bsqrt mode_NE x).
Proof.
  case x as [sx|sx| |sx mx ex Bx]; [now (trivial || case sx)..|]. case sx; [reflexivity|].
  simpl. rewrite B2SF_SF2B. set (melz := SFsqrt_core_binary _ _ _ _). case melz as [[mz ez] lz]. apply round_aux_equiv.
Qed.
Lemma sqrt_acc_ieee : sqrt_acc 2 (SFsqrt 53 1024).
Proof.
  intros x V. rewrite <- (B2SF_toB x V). rewrite SFsqrt_equiv. split; [apply fvalid_B2SF|]. rewrite !ffin_B, !fval_B. intro F.
  destruct (Bsqrt_correct 53 1024 Hprec53 Hmax53 mode_NE (toB x V)) as (E & Ff & _). rewrite rnd_eq in E. set (b := toB x V) in *. clearbody b.
  assert (P : is_finite b = true /\ (B2R b = 0 \/ bpow radix2 (-1074) <= B2R b)).
  { rewrite Ff in F. destruct b as [| | |s m e Be]; try discriminate; [split; [reflexivity|now left]|]. destruct s; [discriminate|]. split; [reflexivity|]. right.
    pose proof (abs_B2R_ge_emin 53 1024 (B754_finite false m e Be) eq_refl) as G. rewrite Rabs_pos_eq in G by (apply F2R_ge_0; simpl; lia). exact G. }
  destruct P as [Fb P]. split; [exact Fb|]. pose proof uro_pos as U. unfold gam. set (s := sqrt (B2R b)) in *.
  destruct P as [P|P]. { rewrite E. unfold s. rewrite P, sqrt_0, round_0 by typeclasses eauto. simpl. rewrite Rminus_diag_eq, Rabs_R0 by ring. lra. }
  assert (Q : s * s = B2R b). { apply sqrt_sqrt. pose proof (bpow_ge_0 radix2 (-1074)). lra. }
  assert (S0 : bpow radix2 (-537) <= s). { apply Rsqr_incr_0_var; [|apply sqrt_pos]. unfold Rsqr. rewrite Q, <- bpow_plus. exact P. }
  pose proof (relative_error_N_FLT_round radix2 (-1074) 53 eq_refl (fun x => negb (Z.even x)) s) as R1. rewrite uro_half in R1.
  specialize (R1 ltac:(rewrite Rabs_pos_eq by apply sqrt_pos; eapply Rle_trans; [apply bpow_le|exact S0]; lia)).
  change (round radix2 (FLT_exp (-1074) 53) (Znearest (fun x => negb (Z.even x))) s) with (rnd64 s) in R1. rewrite <- E in R1. set (t := B2R (Bsqrt mode_NE b)) in *.
  assert (T0 : 0 <= t). { rewrite E. apply round_ge_generic; [typeclasses eauto..|apply generic_format_0|apply sqrt_pos]. }
  rewrite (Rabs_pos_eq t) in R1 by exact T0. assert (S1 : 0 <= s) by apply sqrt_pos.
  replace (t ^ 2 - B2R b) with ((t - s) * (t + s)) by (rewrite <- Q; ring). rewrite Rabs_mult, (Rabs_pos_eq (t + s)) by lra.
  assert (K : s <= (1 + uro) * t) by (unfold Rabs in R1; destruct Rcase_abs; lra).
  apply Rle_trans with (uro * t * ((2 + uro) * t)); [apply Rmult_le_compat; [apply Rabs_pos|lra|exact R1|lra]|]. apply Req_le. ring.
Qed.
