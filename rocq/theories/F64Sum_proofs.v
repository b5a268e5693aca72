(** Rounding errors of polynomial evaluation and of the arithmetic mean in binary64. *)
From Coq Require Import ZArith Reals Lra Lia Bool Arith List SpecFloat.
From Flocq Require Import Core IEEE754.BinarySingleNaN.
From Verif Require Import Outcome Scalar Poly_model Special_model Stat_model F64Flocq Sums F64Err_proofs F64Lin_proofs.
Import ListNotations.
Local Open Scope R_scope.

(** ** Horner's scheme *)
Fixpoint hsum (p : list R) (x : R) : R := match p with [] => 0 | c :: q => c + x * hsum q x end.
Fixpoint fhorner (p : list f64) (x : f64) : f64 := match p with [] => zero | c :: q => add c (mul x (fhorner q x)) end.
Lemma peval_horner (p : list f64) x : peval p x = fhorner p x.
Proof. unfold peval. rewrite <- fold_left_rev_right, rev_involutive. induction p as [|c q IH]; [reflexivity|]. cbn [fold_right fhorner]. rewrite IH. reflexivity. Qed.
Lemma fhorner_valid p x : fvalid x -> Forall fvalid p -> fvalid (fhorner p x).
Proof. intros Vx. induction 1; [reflexivity|]. cbn [fhorner]. apply fvalid_add; [assumption|]. now apply fvalid_mul. Qed.
Definition hunder (n : nat) (x : R) : R := rsum n (fun i => Rabs x ^ i).
Lemma hunder_S n x : hunder (S n) x = 1 + Rabs x * hunder n x.
Proof.
  unfold hunder. rewrite (sumn_first R_RingLaws), <- rsum_scal. change (@add R R_ops) with Rplus. f_equal; apply sumn_ext; intros; reflexivity.
Qed.
Lemma horner_err p x : fvalid x -> Forall fvalid p -> ffin (fhorner p x) = true ->
  Forall (fun c => ffin c = true) p /\ (p <> [] -> ffin x = true) /\
  Rabs (fval (fhorner p x) - hsum (map fval p) (fval x)) <=
    gam (2 * length p) * hsum (map (fun c => Rabs (fval c)) p) (Rabs (fval x)) + hunder (length p) (fval x) * (eta64 * (1 + uro) ^ (2 * length p)).
Proof.
  pose proof uro_pos as U. pose proof eta64_pos as H0. intros Vx. induction 1 as [|c q Vc Vq IH]; intro F.
  - split; [constructor|]. split; [congruence|]. simpl. change (fval zero) with 0. rewrite Rminus_0_r, Rabs_R0. unfold hunder. simpl. lra.
  - cbn [fhorner] in *. pose proof (fhorner_valid q x Vx Vq) as Vs. assert (Vm : fvalid (mul x (fhorner q x))) by now apply fvalid_mul.
    destruct (fadd_err _ _ Vc Vm F) as (Fc & Fm & E1 & _). destruct (fmul_err _ _ Vx Vs Fm) as (Fx & Fs & E2 & _).
    destruct (IH Fs) as (G & _ & B). split; [constructor; assumption|]. split; [auto|].
    cbn [map hsum length]. rewrite hunder_S. set (n := length q) in *. replace (2 * S n)%nat with (S (S (2 * n))) by lia. rewrite !gam_S.
    assert (P0 : (1 + uro) ^ (2 * n) = 1 + gam (2 * n)) by (unfold gam; ring).
    assert (P1 : (1 + uro) ^ S (S (2 * n)) = (1 + uro) * ((1 + uro) * (1 + gam (2 * n)))) by (rewrite <- P0; reflexivity). rewrite P1. rewrite P0 in B.
    assert (HA : forall p y, Rabs (hsum (map fval p) y) <= hsum (map (fun c => Rabs (fval c)) p) (Rabs y)).
    { clear. induction p; intro y; simpl; [rewrite Rabs_R0; lra|]. eapply Rle_trans; [apply Rabs_triang|]. rewrite Rabs_mult. pose proof (Rabs_pos y). specialize (IHp y). nra. }
    specialize (HA q (fval x)). set (A := hsum (map (fun c => Rabs (fval c)) q) (Rabs (fval x))) in *. set (P := hsum (map fval q) (fval x)) in *.
    set (s := fval (fhorner q x)) in *. set (m := fval (mul x (fhorner q x))) in *. set (r := fval (add c _)) in *. set (v := fval c) in *. set (y := fval x) in *.
    pose proof (gam_pos (2 * n)) as GP. set (g := gam (2 * n)) in *.
    assert (HH : 0 <= hunder n y) by (apply rsum_pos; intros; apply pow_le, Rabs_pos). set (W := hunder n y) in *.
    assert (Hs : Rabs s <= Rabs (s - P) + A) by (unfold Rabs in *; repeat destruct Rcase_abs; lra).
    assert (K : Rabs (r - (v + y * P)) <= Rabs (r - (v + m)) + Rabs (m - y * s) + Rabs (y * (s - P))).
    { replace (r - (v + y * P)) with ((r - (v + m)) + (m - y * s) + y * (s - P)) by ring. eapply Rle_trans; [apply Rabs_triang|]. apply Rplus_le_compat_r, Rabs_triang. }
    assert (Km : Rabs (v + m) <= Rabs v + Rabs (m - y * s) + Rabs (y * s)).
    { replace (v + m) with (v + ((m - y * s) + y * s)) by ring. eapply Rle_trans; [apply Rabs_triang|]. rewrite Rplus_assoc. apply Rplus_le_compat_l, Rabs_triang. }
    rewrite (Rabs_mult y s) in *. rewrite (Rabs_mult y (s - P)) in K.
    pose proof (Rabs_pos y) as Hy. pose proof (Rabs_pos v) as Hv. set (e := Rabs (s - P)) in *. assert (He : 0 <= e) by apply Rabs_pos.
    assert (L1 : Rabs y * Rabs s <= Rabs y * (e + A)) by (apply Rmult_le_compat_l; assumption).
    assert (L2 : uro * Rabs (v + m) <= uro * (Rabs v + (uro * (Rabs y * Rabs s) + eta64) + Rabs y * Rabs s)) by (apply Rmult_le_compat_l; lra).
    assert (L3 : Rabs y * e <= Rabs y * (g * A + W * (eta64 * (1 + g)))) by (apply Rmult_le_compat_l; assumption).
    assert (T : Rabs (r - (v + y * P)) <= uro * Rabs v + ((1 + uro) * (1 + uro) - 1) * (Rabs y * A) + (1 + uro) * (1 + uro) * (Rabs y * e) + (1 + uro) * eta64).
    { assert ((2 * uro + uro * uro) * (Rabs y * Rabs s) <= (2 * uro + uro * uro) * (Rabs y * (e + A))) by (apply Rmult_le_compat_l; nra). nra. }
    assert (L4 : (1 + uro) * (1 + uro) * (Rabs y * e) <= (1 + uro) * (1 + uro) * (Rabs y * (g * A + W * (eta64 * (1 + g))))) by (apply Rmult_le_compat_l; nra).
    assert (L5 : uro * Rabs v <= ((g * (1 + uro) + uro) * (1 + uro) + uro) * Rabs v) by (apply Rmult_le_compat_r; nra).
    assert (L6 : (1 + uro) * eta64 <= eta64 * ((1 + uro) * ((1 + uro) * (1 + g)))). { rewrite Rmult_comm. apply Rmult_le_compat_l; [lra|]. nra. }
    assert (Z : 0 <= Rabs y * W * eta64 * (1 + g)) by (repeat apply Rmult_le_pos; lra). nra.
Qed.
Lemma hsum_rsum p x : hsum p x = rsum (length p) (fun i => nth i p 0 * x ^ i).
Proof.
  induction p as [|c q IH]; [reflexivity|]. cbn [hsum length]. rewrite (sumn_first R_RingLaws). cbn [nth pow]. rewrite IH, <- rsum_scal.
  change (@add R R_ops) with Rplus. f_equal; [ring|]. apply sumn_ext. intros i Hi. simpl. ring.
Qed.
Lemma peval_err p x : fvalid x -> Forall fvalid p -> ffin (peval p x) = true ->
  Forall (fun c => ffin c = true) p /\
  Rabs (fval (peval p x) - rsum (length p) (fun i => fval (nth i p zero) * fval x ^ i)) <=
    gam (2 * length p) * rsum (length p) (fun i => Rabs (fval (nth i p zero)) * Rabs (fval x) ^ i) + rsum (length p) (fun i => Rabs (fval x) ^ i) * (eta64 * (1 + uro) ^ (2 * length p)).
Proof.
  intros Vx Vp. rewrite peval_horner. intro F. destruct (horner_err p x Vx Vp F) as (A & _ & B). split; [exact A|]. rewrite !hsum_rsum, !map_length in B. unfold hunder in B.
  rewrite (sumn_ext _ _ (fun i => fval (nth i p zero) * fval x ^ i)) in B.
  - rewrite (sumn_ext _ (fun i => nth i (map (fun c => Rabs (fval c)) p) 0 * Rabs (fval x) ^ i) (fun i => Rabs (fval (nth i p zero)) * Rabs (fval x) ^ i)) in B; [exact B|].
    intros i Hi. f_equal. rewrite (nth_indep _ 0 (Rabs (fval zero))) by (now rewrite map_length). apply (map_nth (fun c => Rabs (fval c))).
  - intros i Hi. f_equal. rewrite (nth_indep _ 0 (fval zero)) by (now rewrite map_length). apply (map_nth fval).
Qed.

(** ** Arithmetic mean *)
Lemma fold_sumn (l : list f64) : fold_left add l zero = sumn (length l) (fun i => nth i l zero).
Proof.
  induction l as [|a l IH] using rev_ind; [reflexivity|]. rewrite fold_left_app, app_length, Nat.add_1_r. cbn [fold_left sumn].
  rewrite IH, app_nth2, Nat.sub_diag by lia. cbn [nth]. f_equal. apply sumn_ext. intros i Hi. symmetry. now apply app_nth1.
Qed.
Lemma mean_err (l : list f64) : (1 <= length l)%nat -> (Z.of_nat (length l) <= 2 ^ 53)%Z -> Forall fvalid l -> ffin (calc_mean l) = true ->
  Forall (fun x => ffin x = true) l /\
  Rabs (fval (calc_mean l) - rsum (length l) (fun i => fval (nth i l zero)) / INR (length l)) <=
    gam (length l) * (rsum (length l) (fun i => Rabs (fval (nth i l zero))) / INR (length l)) + eta64.
Proof.
  intros Hn Hb Vl F. set (n := length l) in *. unfold calc_mean in *. rewrite fold_sumn in *. fold n in F |- *.
  assert (Vi : forall i, (i < n)%nat -> fvalid (nth i l zero)). { intros i Hi. rewrite Forall_forall in Vl. apply Vl, nth_In, Hi. }
  pose proof (fsum_valid n _ Vi) as Vs.
  assert (C : fvalid (of_u n : f64) /\ ffin (of_u n : f64) = true /\ fval (of_u n : f64) = INR n).
  { assert (G : rnd64 (IZR (Z.of_nat n)) = IZR (Z.of_nat n)).
    { apply round_generic; [typeclasses eauto|]. apply generic_format_FLT. destruct (Z.eq_dec (Z.of_nat n) (2 ^ 53)) as [E|E].
      - rewrite E. exists (Float radix2 1 53); simpl; try lia. unfold F2R. simpl. lra.
      - exists (Float radix2 (Z.of_nat n) 0); simpl; try lia. unfold F2R. simpl. ring. }
    destruct (int_round (Z.of_nat n)) as (C1 & C2 & C3).
    - unfold no_overflow. rewrite G. rewrite Rabs_pos_eq by (apply IZR_le; lia). apply Rle_lt_trans with (IZR (2 ^ 53)); [now apply IZR_le|]. change (IZR (2 ^ 53)) with (bpow radix2 53). apply bpow_lt. lia.
    - split; [exact C1|]. split; [exact C2|]. rewrite INR_IZR_INZ, <- G. exact C3. }
  destruct C as (C1 & C2 & C3). destruct (fdiv_err _ _ Vs C1 C2 F) as (Fs & _ & E & _). destruct (fsum_err n _ Vi Fs) as [G B].
  split. { rewrite Forall_forall. intros x Hx. destruct (In_nth _ _ zero Hx) as (i & Hi & <-). now apply G. }
  rewrite C3 in E. set (s := fval (sumn n _)) in *. set (t := rsum n (fun i => fval (nth i l zero))) in *. set (A := rsum n (fun i => Rabs (fval (nth i l zero)))) in *.
  pose proof (rsum_abs n (fun i => fval (nth i l zero))) as HA. fold t in HA. change (rsum n (fun l0 => Rabs (fval (nth l0 l zero)))) with A in HA.
  assert (N : 0 < INR n) by (apply lt_0_INR; lia). set (k := / INR n). assert (Hk : 0 < k) by now apply Rinv_0_lt_compat.
  unfold Rdiv in *. fold k in E |- *. set (r := fval (div _ _)) in *. pose proof uro_pos as U.
  assert (GS : gam n = gam (n - 1) * (1 + uro) + uro). { replace n with (S (n - 1)) at 1 by lia. apply gam_S. } rewrite GS. pose proof (gam_pos (n - 1)) as GP. set (g := gam (n - 1)) in *. change (Rabs (s - t) <= g * A) in B. change (Rabs t <= A) in HA.
  assert (K1 : Rabs (s * k) <= (Rabs (s - t) + A) * k). { rewrite Rabs_mult, (Rabs_pos_eq k) by lra. apply Rmult_le_compat_r; [lra|]. replace s with ((s - t) + t) at 1 by ring. eapply Rle_trans; [apply Rabs_triang|]. now apply Rplus_le_compat_l. }
  assert (K2 : Rabs (r - t * k) <= Rabs (r - s * k) + Rabs (s - t) * k).
  { replace (r - t * k) with ((r - s * k) + (s - t) * k) by ring. eapply Rle_trans; [apply Rabs_triang|]. rewrite (Rabs_mult (s - t)), (Rabs_pos_eq k) by lra. lra. }
  assert (K3 : Rabs (s - t) * k <= g * A * k) by (apply Rmult_le_compat_r; lra).
  assert (K4 : uro * Rabs (s * k) <= uro * ((g * A + A) * k)). { apply Rmult_le_compat_l; [lra|]. eapply Rle_trans; [exact K1|]. apply Rmult_le_compat_r; lra. } nra.
Qed.
