(** Rounding errors of the Euclidean norm in binary64. *)
From Coq Require Import ZArith Reals Lra Lia Bool Arith List SpecFloat Psatz.
From Flocq Require Import Core Relative IEEE754.BinarySingleNaN.
From Verif Require Import Outcome Scalar RealOps Matrix_model Vector_model Decomp_model Matrix_spec Decomp_spec Sums F64_spec F64Cplx_spec F64Stat_spec F64Norm_spec
  F64Flocq F64Err_proofs F64Sum_proofs F64Grid_proofs F64Chol_proofs F64Var_proofs Norm_proofs F64NewtonEx_proofs.
Import ListNotations.
Local Open Scope R_scope.
#[local] Existing Instance Hprec53.

Lemma sqrt_close a b c s : 0 <= a -> 0 <= b -> 0 <= c -> 0 <= s -> Rabs (c - s) <= a * s + b -> Rabs (sqrt c - sqrt s) <= a * sqrt s + sqrt b.
Proof.
  intros Ha Hb Hc Hs H. set (x := sqrt c). set (N := sqrt s). set (r := sqrt b).
  assert (X : x * x = c) by now apply sqrt_sqrt. assert (NN : N * N = s) by now apply sqrt_sqrt. assert (RR : r * r = b) by now apply sqrt_sqrt.
  assert (x0 : 0 <= x) by apply sqrt_pos. assert (N0 : 0 <= N) by apply sqrt_pos. assert (r0 : 0 <= r) by apply sqrt_pos.
  rewrite <- X, <- NN, <- RR in H. replace (x * x - N * N) with ((x - N) * (x + N)) in H by ring. rewrite Rabs_mult, (Rabs_pos_eq (x + N)) in H by lra.
  set (d := Rabs (x - N)) in *. assert (D : 0 <= d) by apply Rabs_pos. assert (DX : d <= x + N) by (unfold d, Rabs; destruct Rcase_abs; lra).
  destruct (Rle_lt_dec d (a * N + r)) as [|L]; [assumption|exfalso].
  assert (AN : 0 <= a * N) by (apply Rmult_le_pos; assumption).
  assert (P : (a * N + r) * (x + N) < d * (x + N)) by (apply Rmult_lt_compat_r; lra).
  assert (a * N * N <= a * N * (x + N)) by (apply Rmult_le_compat_l; lra).
  assert (r * r <= r * (x + N)) by (apply Rmult_le_compat_l; lra). lra.
Qed.

Lemma half_two pw : div one (@two f64 (F64_pops pw)) = @half f64 (F64_pops pw).
Proof. vm_compute. reflexivity. Qed.
Lemma norm_value pw (v : vector f64) n g : is_col v n g \/ is_row v n g ->
  @veucl_norm f64 F64_ops (F64_pops pw) v = Ret (pw (sumn n (fun i => pw (g i) (@two f64 (F64_pops pw)))) (@half f64 (F64_pops pw))).
Proof. intros H. unfold veucl_norm. rewrite (vp_norm_gen v n g two H) by (vm_compute; reflexivity). rewrite half_two. reflexivity. Qed.

Lemma norm_err pw k j (v : vector f64) n g : square_acc k (fun x => pw x (@two f64 (F64_pops pw))) -> root_acc j (fun x => pw x (@half f64 (F64_pops pw))) ->
  is_col v n g \/ is_row v n g -> (forall i, (i < n)%nat -> fvalid (g i)) ->
  exists s, @veucl_norm f64 F64_ops (F64_pops pw) v = Ret s /\ fvalid s /\
    (ffin s = true -> let N := enorm n (fun i => fval (g i)) in (forall i, (i < n)%nat -> ffin (g i) = true) /\
      Rabs (fval s - N) <= gam (n - 1 + k + j) * N + (1 + gam j) * sqrt (INR n * eta64 * (1 + gam (n - 1)))).
Proof.
  intros HS HR Hv Hg. rewrite (norm_value pw v n g Hv). eexists. split; [reflexivity|].
  set (f := fun i => pw (g i) (@two f64 (F64_pops pw))).
  assert (Vf : forall l, (l < n)%nat -> fvalid (f l)) by (intros l Hl; apply (HS (g l) (Hg l Hl))).
  assert (Vs : fvalid (sumn n f)) by now apply fsum_valid.
  destruct (HR (sumn n f) Vs) as (Vr & HR'). split; [exact Vr|]. intros F. destruct (HR' F) as (Fs & S0 & ER). cbv zeta.
  destruct (fsum_err n f Vf Fs) as (Ff & _).
  assert (Q : forall l, (l < n)%nat -> ffin (g l) = true /\ Rabs (fval (f l) - fval (g l) ^ 2) <= gam k * fval (g l) ^ 2 + eta64).
  { intros l Hl. destruct (HS (g l) (Hg l Hl)) as (_ & H). apply H. now apply Ff. }
  split. { intros i Hi. apply (Q i Hi). }
  pose proof eta64_pos as E0.
  pose proof (fsum_err_rel n f (fun l => fval (g l) ^ 2) k eta64 Vf Fs ltac:(intros; apply pow2_ge_0) ltac:(lra) (fun l Hl => proj2 (Q l Hl))) as B.
  assert (ES : rsum n (fun l => fval (g l) ^ 2) = sumsq n (fun i => fval (g i))) by (apply sumn_ext; intros; ring). rewrite ES in B.
  set (S := sumsq n (fun i => fval (g i))) in *. assert (S1 : 0 <= S) by apply sumsq_nonneg. change (enorm n (fun i => fval (g i))) with (sqrt S).
  set (b := INR n * eta64 * (1 + gam (n - 1))) in *.
  assert (B0 : 0 <= b) by (unfold b; pose proof (gam_pos (n - 1)); apply Rmult_le_pos; [apply Rmult_le_pos; [apply pos_INR|lra]|lra]).
  pose proof (sqrt_close _ b _ S (gam_pos (n - 1 + k)) B0 S0 S1 B) as C. set (t := sqrt (fval (sumn n f))) in *. set (N := sqrt S) in *. set (r := sqrt b) in *.
  assert (N0 : 0 <= N) by apply sqrt_pos. assert (r0 : 0 <= r) by apply sqrt_pos. set (a := gam (n - 1 + k)) in *.
  set (q := fval (pw (sumn n f) half)) in *. replace (q - N) with ((q - t) + (t - N)) by ring. eapply Rle_trans; [apply Rabs_triang|].
  assert (T : t <= N + (a * N + r)) by (apply Rabs_le_inv in C; lra).
  pose proof (gam_pos j) as Gj. assert (gam j * t <= gam j * (N + (a * N + r))) by (apply Rmult_le_compat_l; assumption).
  pose proof (gam_add (n - 1 + k) j) as GA. fold a in GA. replace (gam (n - 1 + k + j)) with (a + gam j + a * gam j) by lra. lra.
Qed.

Lemma norm_fin pw (v : vector f64) n g : square_total (fun x => pw x (@two f64 (F64_pops pw))) -> root_total (fun x => pw x (@half f64 (F64_pops pw))) ->
  (forall x, fvalid x -> fvalid (pw x (@two f64 (F64_pops pw)))) ->
  is_col v n g \/ is_row v n g -> (forall i, (i < n)%nat -> fgood (g i) /\ Rabs (fval (g i)) <= bpow radix2 500) -> INR n <= bpow radix2 20 ->
  exists s, @veucl_norm f64 F64_ops (F64_pops pw) v = Ret s /\ ffin s = true.
Proof.
  intros HS HR HV Hv Hg Hn. rewrite (norm_value pw v n g Hv). eexists. split; [reflexivity|].
  set (f := fun i => pw (g i) (@two f64 (F64_pops pw))). set (Q := bpow radix2 1001).
  assert (Q0 : 0 < Q) by apply bpow_gt_0. assert (QB : 2 * (bpow radix2 20 * Q) <= bpow radix2 1023).
  { unfold Q. rewrite <- bpow_plus. change 2 with (bpow radix2 1). rewrite <- bpow_plus. apply bpow_le. lia. }
  assert (H : forall m, (m <= n)%nat -> fgood (sumn m f) /\ 0 <= fval (sumn m f) <= 2 * INR m * Q).
  { induction m as [|m IH]; intros Hm. { split; [split; reflexivity|]. cbn [sumn INR]. change (fval zero) with 0. lra. }
    destruct (IH ltac:(lia)) as ((Vm & Fm) & B). destruct (Hg m ltac:(lia)) as (Gm & Bm). destruct (HS (g m) Gm Bm) as (Ff & Bf). fold (f m) in Ff, Bf.
    assert (Vf : fvalid (f m)) by (apply HV, Gm). cbn [sumn]. apply le_INR in Hm. rewrite S_INR in Hm. pose proof (pos_INR m) as M0.
    set (p := fval (sumn m f)) in *. set (q := fval (f m)) in *. fold Q in Bf.
    assert (I1 : INR m * Q <= (bpow radix2 20 - 1) * Q) by (apply Rmult_le_compat_r; lra).
    destruct (fadd_ok (sumn m f) (f m) Vm Vf Fm Ff) as (V & F & E). { fold p q. rewrite Rabs_pos_eq by lra. lra. }
    fold p q in E. rewrite (Rabs_pos_eq (p + q)) in E by lra. split; [split; assumption|]. apply Rabs_le_inv in E. pose proof uro_pos as U0. pose proof uro_val as UV. rewrite S_INR.
    assert (C20 : bpow radix2 20 = 1048576) by reflexivity. rewrite C20 in *.
    assert (uro * (p + q) <= uro * (2 * INR m * Q + Q)) by (apply Rmult_le_compat_l; lra).
    assert (U1 : uro * (2 * INR m + 1) <= 1) by (rewrite UV; lra).
    assert (U2 : uro * (2 * INR m + 1) * Q <= 1 * Q) by (apply Rmult_le_compat_r; lra).
    assert (U3 : uro * (p + q) <= 1 * (p + q)) by (apply Rmult_le_compat_r; [lra|rewrite UV; lra]). lra. }
  destruct (H n (le_n n)) as (G & B). apply HR; [exact G|lra].
Qed.

Lemma root_acc_ieee : root_acc 1 (SFsqrt 53 1024) /\ root_total (SFsqrt 53 1024).
Proof.
  split; [|intros x G H; destruct (fsqrt_ok x G H) as ((_ & F) & _); exact F].
  intros x V. rewrite <- (B2SF_toB x V). rewrite SFsqrt_equiv. split; [apply fvalid_B2SF|]. rewrite !ffin_B, !fval_B. intro F.
  destruct (Bsqrt_correct 53 1024 Hprec53 Hmax53 mode_NE (toB x V)) as (E & Ff & _). rewrite rnd_eq in E. set (b := toB x V) in *. clearbody b.
  assert (P : is_finite b = true /\ (B2R b = 0 \/ bpow radix2 (-1074) <= B2R b)).
  { rewrite Ff in F. destruct b as [| | |s m e Be]; try discriminate; [split; [reflexivity|now left]|]. destruct s; [discriminate|]. split; [reflexivity|]. right.
    pose proof (abs_B2R_ge_emin 53 1024 (B754_finite false m e Be) eq_refl) as G. rewrite Rabs_pos_eq in G by (apply F2R_ge_0; simpl; lia). exact G. }
  destruct P as [Fb P]. split; [exact Fb|]. pose proof (bpow_ge_0 radix2 (-1074)) as Bp. split; [destruct P; lra|]. replace (gam 1) with uro by (unfold gam; ring).
  set (s := sqrt (B2R b)) in *. assert (S1 : 0 <= s) by apply sqrt_pos.
  destruct P as [P|P]. { rewrite E. unfold s. rewrite P, sqrt_0, round_0 by typeclasses eauto. rewrite Rminus_eq_0, Rabs_R0. lra. }
  assert (Q : s * s = B2R b) by (apply sqrt_sqrt; lra).
  assert (S0 : bpow radix2 (-537) <= s). { apply Rsqr_incr_0_var; [|exact S1]. unfold Rsqr. rewrite Q, <- bpow_plus. exact P. }
  pose proof (relative_error_N_FLT radix2 (-1074) 53 eq_refl (fun x => negb (Z.even x)) s) as R1. rewrite uro_half in R1.
  specialize (R1 ltac:(rewrite Rabs_pos_eq by exact S1; eapply Rle_trans; [apply bpow_le|exact S0]; lia)).
  rewrite (Rabs_pos_eq s) in R1 by exact S1. rewrite E. exact R1.
Qed.
Lemma square_total_mul : square_total (fun x => mul x x).
Proof.
  intros x (V & F) B. set (a := fval x) in *.
  assert (P : 0 <= a * a <= bpow radix2 1000). { split; [apply Rle_0_sqr|]. rewrite <- (Rabs_pos_eq (a * a)) by apply Rle_0_sqr. rewrite Rabs_mult. change 1000%Z with (500 + 500)%Z. rewrite bpow_plus. apply Rmult_le_compat; try apply Rabs_pos; exact B. }
  destruct (fmul_round x x V V F F) as (E & Fm). { apply no_ov. fold a. rewrite Rabs_pos_eq by lra. eapply Rle_trans; [apply P|apply bpow_le; lia]. }
  split; [exact Fm|]. rewrite E. fold a. split.
  - apply round_ge_generic; [typeclasses eauto..|apply generic_format_0|lra].
  - apply round_le_generic; [typeclasses eauto..|apply generic_format_bpow; cbn; lia|]. eapply Rle_trans; [apply P|apply bpow_le; lia].
Qed.
Lemma norm_pow : square_acc 1 (fun x => root_pow x (@two f64 (F64_pops root_pow))) /\ root_acc 1 (fun x => root_pow x (@half f64 (F64_pops root_pow))) /\
  square_total (fun x => root_pow x (@two f64 (F64_pops root_pow))) /\ root_total (fun x => root_pow x (@half f64 (F64_pops root_pow))).
Proof. destruct root_acc_ieee. split; [exact square_acc_mul|]. split; [assumption|]. split; [exact square_total_mul|assumption]. Qed.

(** 2^512 and 2^-538 *)
Definition big_512 : f64 := S754_finite false 4503599627370496 460.
Definition tiny_538 : f64 := S754_finite false 4503599627370496 (-590).
Lemma norm_range : (fgood big_512 /\ fval big_512 = bpow radix2 512 /\ @veucl_norm f64 F64_ops (F64_pops root_pow) (mkMatrix 1 1 [big_512]) = Ret (S754_infinity false)) /\
  (fgood tiny_538 /\ fval tiny_538 = bpow radix2 (-538) /\ @veucl_norm f64 F64_ops (F64_pops root_pow) (mkMatrix 1 1 [tiny_538]) = Ret zero).
Proof.
  split; (split; [split; reflexivity|]; split; [|vm_compute; reflexivity]).
  - unfold big_512, fval, SF2R, F2R. cbn [Fnum Fexp cond_Zopp]. change (IZR (Z.pos 4503599627370496)) with (bpow radix2 52). rewrite <- bpow_plus. reflexivity.
  - unfold tiny_538, fval, SF2R, F2R. cbn [Fnum Fexp cond_Zopp]. change (IZR (Z.pos 4503599627370496)) with (bpow radix2 52). rewrite <- bpow_plus. reflexivity.
Qed.
