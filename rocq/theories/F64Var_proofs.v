(** Rounding errors of the sample variance in binary64. *)
From Coq Require Import ZArith Reals Lra Lia Bool Arith List SpecFloat.
From Flocq Require Import Core IEEE754.BinarySingleNaN.
From Verif Require Import Outcome Scalar RealOps Elem_model Int_model Ode_model Special_model Stat_model F64Flocq Sums F64_spec F64Err_proofs F64Lin_proofs F64Sum_proofs F64Grid_proofs F64Stat_spec.
Import ListNotations.
Local Open Scope R_scope.

Lemma total_rsum {A} (g : A -> R) (l : list A) d : total (map g l) = rsum (length l) (fun i => g (nth i l d)).
Proof.
  induction l as [|a l IH]; [reflexivity|]. cbn [map total length]. rewrite (sumn_first R_RingLaws). cbn [nth]. rewrite IH. reflexivity.
Qed.
Lemma fold_sumn_map (g : f64 -> f64) (l : list f64) : fold_left (fun s x => add s (g x)) l zero = sumn (length l) (fun i => g (nth i l zero)).
Proof.
  induction l as [|a l IH] using rev_ind; [reflexivity|]. rewrite fold_left_app, app_length, Nat.add_1_r. cbn [fold_left sumn].
  rewrite IH, app_nth2, Nat.sub_diag by lia. cbn [nth]. f_equal. apply sumn_ext. intros i Hi. f_equal. symmetry. now apply app_nth1.
Qed.
Lemma of_u_ok n : (Z.of_nat n <= 2 ^ 53)%Z -> fvalid (of_u n : f64) /\ ffin (of_u n : f64) = true /\ fval (of_u n : f64) = INR n.
Proof.
  intro Hb. assert (G : rnd64 (IZR (Z.of_nat n)) = IZR (Z.of_nat n)).
  { apply round_generic; [typeclasses eauto|]. apply generic_format_FLT. destruct (Z.eq_dec (Z.of_nat n) (2 ^ 53)) as [E|E].
    - rewrite E. exists (Float radix2 1 53); simpl; try lia. unfold F2R. simpl. lra.
    - exists (Float radix2 (Z.of_nat n) 0); simpl; try lia. unfold F2R. simpl. ring. }
  destruct (int_round (Z.of_nat n)) as (C1 & C2 & C3).
  - unfold no_overflow. rewrite G. rewrite Rabs_pos_eq by (apply IZR_le; lia). apply Rle_lt_trans with (IZR (2 ^ 53)); [now apply IZR_le|]. change (IZR (2 ^ 53)) with (bpow radix2 53). apply bpow_lt. lia.
  - split; [exact C1|]. split; [exact C2|]. rewrite INR_IZR_INZ, <- G. exact C3.
Qed.
Lemma gam_add a b : (1 + gam a) * (1 + gam b) = 1 + gam (a + b).
Proof. unfold gam. rewrite pow_add. ring. Qed.

(** One squared deviation. *)
Lemma dev_err k sq x m : square_acc k sq -> fvalid x -> fvalid m -> ffin (sq (sub x m)) = true ->
  ffin x = true /\ ffin m = true /\ Rabs (fval (sq (sub x m)) - (fval x - fval m) ^ 2) <= gam (2 + k) * (fval x - fval m) ^ 2 + eta64.
Proof.
  intros S Vx Vm F. assert (Vd : fvalid (sub x m)) by now apply fvalid_sub. destruct (S _ Vd) as (Vs & S'). destruct (S' F) as (Fd & E).
  destruct (fsub_err _ _ Vx Vm Fd) as (Fx & Fm & D & _). split; [exact Fx|]. split; [exact Fm|].
  set (d := fval (sub x m)) in *. set (t := fval x - fval m) in *. set (s := fval (sq (sub x m))) in *.
  assert (Q : Rabs (d ^ 2 - t ^ 2) <= gam 2 * t ^ 2).
  { replace (d ^ 2 - t ^ 2) with ((d - t) * (d - t) + 2 * ((d - t) * t)) by ring.
    assert (T2 : t ^ 2 = Rabs t * Rabs t) by (rewrite <- Rabs_mult, Rabs_pos_eq by nra; ring).
    eapply Rle_trans; [apply Rabs_triang|]. rewrite !Rabs_mult, (Rabs_pos_eq 2) by lra. rewrite T2. unfold gam.
    pose proof (Rabs_pos t) as Pt. pose proof (Rabs_pos (d - t)) as Pd. pose proof uro_pos as U.
    assert (Rabs (d - t) * Rabs (d - t) <= uro * Rabs t * (uro * Rabs t)) by (apply Rmult_le_compat; lra).
    assert (Rabs (d - t) * Rabs t <= uro * Rabs t * Rabs t) by (apply Rmult_le_compat_r; lra). simpl. nra. }
  pose proof (gam_pos k) as G. pose proof (gam_pos 2) as G2. pose proof (gam_add 2 k) as GA.
  assert (T0 : 0 <= t ^ 2) by (apply pow2_ge_0).
  assert (D2 : d ^ 2 <= (1 + gam 2) * t ^ 2) by (unfold Rabs in Q; destruct Rcase_abs; lra).
  replace (s - t ^ 2) with ((s - d ^ 2) + (d ^ 2 - t ^ 2)) by ring. eapply Rle_trans; [apply Rabs_triang|].
  assert (gam k * d ^ 2 <= gam k * ((1 + gam 2) * t ^ 2)) by (apply Rmult_le_compat_l; lra).
  replace (gam (2 + k)) with (gam 2 + gam k * (1 + gam 2)) by lra. lra.
Qed.
(** A rounded sum of terms, each with a relative and an absolute error. *)
Lemma fsum_err_rel n (f : nat -> f64) (t : nat -> R) k e : (forall l, (l < n)%nat -> fvalid (f l)) -> ffin (sumn n f) = true -> (forall l, (l < n)%nat -> 0 <= t l) -> 0 <= e ->
  (forall l, (l < n)%nat -> Rabs (fval (f l) - t l) <= gam k * t l + e) ->
  Rabs (fval (sumn n f) - rsum n t) <= gam (n - 1 + k) * rsum n t + INR n * e * (1 + gam (n - 1)).
Proof.
  intros V F T E H. destruct (fsum_err n f V F) as (_ & B). set (s := fval (sumn n f)) in *.
  pose proof (gam_pos k) as G. pose proof (gam_pos (n - 1)) as G1. pose proof (gam_add (n - 1) k) as GA. pose proof (rsum_pos n t T) as TP.
  assert (H1 : Rabs (rsum n (fun l => fval (f l)) - rsum n t) <= gam k * rsum n t + INR n * e).
  { clear B F V s TP. induction n as [|n IH]. { simpl. rewrite Rminus_0_r, Rabs_R0. lra. }
    rewrite !rsum_S, S_INR. specialize (IH (fun l Hl => T l ltac:(lia)) (fun l Hl => H l ltac:(lia)) (gam_pos _) (gam_add _ _)). specialize (H n ltac:(lia)).
    replace (rsum n (fun l => fval (f l)) + fval (f n) - (rsum n t + t n)) with ((rsum n (fun l => fval (f l)) - rsum n t) + (fval (f n) - t n)) by ring.
    eapply Rle_trans; [apply Rabs_triang|]. lra. }
  assert (H2 : rsum n (fun l => Rabs (fval (f l))) <= (1 + gam k) * rsum n t + INR n * e).
  { clear B F V s TP H1. induction n as [|n IH]. { simpl. lra. }
    rewrite !rsum_S, S_INR. specialize (IH (fun l Hl => T l ltac:(lia)) (fun l Hl => H l ltac:(lia)) (gam_pos _) (gam_add _ _)). specialize (H n ltac:(lia)).
    assert (Rabs (fval (f n)) <= (1 + gam k) * t n + e) by (unfold Rabs in *; repeat destruct Rcase_abs; specialize (T n ltac:(lia)); lra). lra. }
  replace (s - rsum n t) with ((s - rsum n (fun l => fval (f l))) + (rsum n (fun l => fval (f l)) - rsum n t)) by ring.
  eapply Rle_trans; [apply Rabs_triang|].
  assert (gam (n - 1) * rsum n (fun l => Rabs (fval (f l))) <= gam (n - 1) * ((1 + gam k) * rsum n t + INR n * e)) by (apply Rmult_le_compat_l; lra).
  replace (gam (n - 1 + k)) with (gam (n - 1) + gam k + gam (n - 1) * gam k) by lra. nra.
Qed.
Section Var.
Variable pw : f64 -> f64 -> f64.

Definition sq2 (x : f64) : f64 := pw x (lit 2 1).

Lemma variance_at k (l : list f64) m : square_acc k sq2 -> (2 <= length l)%nat -> (Z.of_nat (length l) <= 2 ^ 53)%Z -> Forall fvalid l -> fvalid m ->
  let V := @calc_variance f64 F64_ops (F64_pops pw) F64_zops l m in ffin V = true ->
  let S := total (map (fun x => (fval x - fval m) ^ 2) l) / INR (length l - 1) in
  Forall (fun x => ffin x = true) l /\ ffin m = true /\ Rabs (fval V - S) <= gam (length l + k + 2) * S + 4 * eta64 * (1 + gam (length l)).
Proof.
  intros Sq Hn Hb Vl Vm V F S. unfold V, calc_variance in F. cbn [tpow F64_pops] in F. change (fun s x : f64 => add s (pw (sub x m) (lit 2 1))) with (fun s x : f64 => add s ((fun y => sq2 (sub y m)) x)) in F.
  rewrite fold_sumn_map in F. set (n := length l) in *.
  assert (Vi : forall i, (i < n)%nat -> fvalid (nth i l zero)). { intros i Hi. rewrite Forall_forall in Vl. apply Vl, nth_In, Hi. }
  set (f := fun i => sq2 (sub (nth i l zero) m)) in *.
  assert (Vf : forall i, (i < n)%nat -> fvalid (f i)) by (intros i Hi; exact (proj1 (Sq _ (fvalid_sub _ _ (Vi i Hi) Vm)))).
  pose proof (fsum_valid n f Vf) as Vs. destruct (of_u_ok (n - 1) ltac:(lia)) as (C1 & C2 & C3).
  destruct (fdiv_err _ _ Vs C1 C2 F) as (Fs & _ & E & _). destruct (fsum_err n f Vf Fs) as (Ff & _).
  assert (D : forall i, (i < n)%nat -> ffin (nth i l zero) = true /\ ffin m = true /\ Rabs (fval (f i) - (fval (nth i l zero) - fval m) ^ 2) <= gam (2 + k) * (fval (nth i l zero) - fval m) ^ 2 + eta64)
    by (intros i Hi; exact (dev_err k sq2 _ m Sq (Vi i Hi) Vm (Ff i Hi))).
  split. { rewrite Forall_forall. intros x Hx. destruct (In_nth _ _ zero Hx) as (i & Hi & <-). now apply D. }
  split; [apply (D 0%nat); lia|].
  pose proof eta64_pos as H0. pose proof uro_pos as U.
  pose proof (fsum_err_rel n f (fun i => (fval (nth i l zero) - fval m) ^ 2) (2 + k) eta64 Vf Fs (fun i _ => pow2_ge_0 _) (Rlt_le _ _ H0) (fun i Hi => proj2 (proj2 (D i Hi)))) as B.
  assert (EV : fval V = fval (div (sumn n f) (of_u (n - 1)))) by (unfold V, calc_variance; cbn [tpow F64_pops]; change (fun s x : f64 => add s (pw (sub x m) (lit 2 1))) with (fun s x : f64 => add s ((fun y => sq2 (sub y m)) x)); rewrite fold_sumn_map; reflexivity).
  rewrite EV. clear EV. rewrite C3 in E. assert (ES : S = rsum n (fun i => (fval (nth i l zero) - fval m) ^ 2) / INR (n - 1)) by (unfold S; rewrite (total_rsum _ l zero); reflexivity).
  assert (TP : 0 <= rsum n (fun i => (fval (nth i l zero) - fval m) ^ 2)) by (apply rsum_pos; intros; apply pow2_ge_0).
  rewrite ES. clear ES S. set (T := rsum n (fun i => (fval (nth i l zero) - fval m) ^ 2)) in *. set (s := fval (sumn n f)) in *. set (r := fval (div _ _)) in *.
  assert (N : 1 <= INR (n - 1)) by (apply (le_INR 1); lia). assert (NN : INR n = INR (n - 1) + 1) by (rewrite <- S_INR; f_equal; lia). set (w := INR (n - 1)) in *.
  set (q := / w). assert (Hq : 0 < q) by (apply Rinv_0_lt_compat; lra). assert (Hq1 : q * w = 1) by (unfold q; field; lra).
  unfold Rdiv in *. fold q in E |- *.
  assert (B' : Rabs (s * q - T * q) <= gam (n - 1 + (2 + k)) * (T * q) + 2 * eta64 * (1 + gam (n - 1))).
  { rewrite <- Rmult_minus_distr_r, Rabs_mult, (Rabs_pos_eq q) by lra. eapply Rle_trans; [apply Rmult_le_compat_r; [lra|exact B]|].
    replace (INR n * eta64 * (1 + gam (n - 1)) ) with ((w + 1) * (eta64 * (1 + gam (n - 1)))) by (rewrite NN; ring).
    assert (0 <= eta64 * (1 + gam (n - 1))) by (apply Rmult_le_pos; [lra|pose proof (gam_pos (n - 1)); lra]).
    assert (q <= 1) by nra. assert ((w + 1) * q <= 2) by nra. assert ((w + 1) * q * (eta64 * (1 + gam (n - 1))) <= 2 * (eta64 * (1 + gam (n - 1)))) by (apply Rmult_le_compat_r; lra). nra. }
  assert (G1 : gam (n + k + 2) = gam (n - 1 + (2 + k)) * (1 + uro) + uro) by (rewrite <- gam_S; f_equal; lia).
  assert (G2 : gam n = gam (n - 1) * (1 + uro) + uro) by (rewrite <- gam_S; f_equal; lia).
  pose proof (gam_pos (n - 1 + (2 + k))) as P1. pose proof (gam_pos (n - 1)) as P2. assert (X0 : 0 <= T * q) by (apply Rmult_le_pos; lra).
  set (X := T * q) in *. set (Y := s * q) in *. set (g := gam (n - 1 + (2 + k))) in *. set (g' := gam (n - 1)) in *.
  assert (YX : Rabs Y <= Rabs (Y - X) + X) by (rewrite <- (Rabs_pos_eq X X0) at 2; replace Y with (Y - X + X) at 1 by ring; apply Rabs_triang).
  replace (r - X) with ((r - Y) + (Y - X)) by ring. eapply Rle_trans; [apply Rabs_triang|].
  assert (uro * Rabs Y <= uro * (g * X + 2 * eta64 * (1 + g') + X)) by (apply Rmult_le_compat_l; lra).
  rewrite G1, G2. assert (0 <= eta64 * g') by (apply Rmult_le_pos; lra). assert (0 <= uro * (eta64 * g')) by (apply Rmult_le_pos; lra). assert (0 <= uro * eta64) by (apply Rmult_le_pos; lra). nra.
Qed.
(** The sum of squares about any point. *)
Lemma sum_about (l : list R) c : l <> [] -> total (map (fun x => (x - c) ^ 2) l) = total (map (fun x => (x - average l) ^ 2) l) + INR (length l) * (average l - c) ^ 2.
Proof.
  intro H. assert (N : INR (length l) <> 0) by (apply not_0_INR; destruct l; simpl; congruence).
  assert (G : forall a, total (map (fun x => (x - a) ^ 2) l) = total (map (fun x => x ^ 2) l) - 2 * a * total l + INR (length l) * a ^ 2).
  { intro a. clear. induction l as [|x l IH]; [simpl; ring|]. cbn [map total]. change (length (x :: l)) with (S (length l)). rewrite IH, S_INR. ring. }
  rewrite !G. replace (total l) with (average l * INR (length l)) by (unfold average; field; exact N). ring.
Qed.
Lemma from_data k (l : list f64) d : square_acc k sq2 -> (Z.of_nat (length l) <= 2 ^ 53)%Z -> Forall fvalid l ->
  @normal_from_data f64 F64_ops (F64_pops pw) F64_zops l = Ret d -> ffin (no_var d) = true -> 
  let x := map fval l in let n := length l in let D := gam n * average_abs x + eta64 in
  (2 <= n)%nat /\ Forall (fun x => ffin x = true) l /\ ffin (no_mean d) = true /\ 0 < fval (no_var d) /\
  Rabs (fval (no_mean d) - average x) <= D /\
  Rabs (fval (no_var d) - unbiased_variance x) <= gam (n + k + 2) * unbiased_variance x + (1 + gam (n + k + 2)) * (2 * D ^ 2) + 4 * eta64 * (1 + gam n).
Proof.
  intros Sq Hb Vl H F x n D. unfold normal_from_data in H. destruct (length l <? 2)%nat eqn:H2; [discriminate|]. apply Nat.ltb_ge in H2. fold n in H2, Hb.
  cbv zeta in H. unfold normal_new in H. destruct (leb _ zero) eqn:LE in H; [discriminate|]. injection H as <-. cbn [no_var no_mean] in *.
  set (m := calc_mean l) in *.
  assert (Vm : fvalid m). { unfold m, calc_mean. rewrite fold_sumn. destruct (of_u_ok n Hb) as (? & ? & ?). apply fvalid_div; [|assumption]. apply fsum_valid. intros i Hi. rewrite Forall_forall in Vl. apply Vl, nth_In, Hi. }
  pose proof (variance_at k l m Sq H2 Hb Vl Vm F) as (Fl & Fm & B). fold n in B.
  destruct (mean_err l ltac:(unfold n in H2; lia) Hb Vl Fm) as (_ & M).
  assert (Ex : average x = rsum n (fun i => fval (nth i l zero)) / INR n) by (unfold average, x; rewrite (total_rsum _ l zero), map_length; reflexivity).
  assert (Ea : average_abs x = rsum n (fun i => Rabs (fval (nth i l zero))) / INR n) by (unfold average_abs, average, x; rewrite map_map, (total_rsum _ l zero), map_length; reflexivity).
  assert (M' : Rabs (fval m - average x) <= D) by (rewrite Ex; unfold D; rewrite Ea; exact M). clear M Ex Ea.
  split; [exact H2|]. split; [exact Fl|]. split; [exact Fm|]. split.
  { set (V := @calc_variance f64 F64_ops (F64_pops pw) F64_zops l m) in *.
    assert (VV : fvalid V). { unfold V, calc_variance. cbn [tpow F64_pops]. change (fun s x : f64 => add s (pw (sub x m) (lit 2 1))) with (fun s x : f64 => add s ((fun y => sq2 (sub y m)) x)). rewrite fold_sumn_map. destruct (of_u_ok (length l - 1) ltac:(unfold n in Hb; lia)) as (? & ? & ?).
      apply fvalid_div; [|assumption]. apply fsum_valid. intros i Hi. refine (proj1 (Sq _ _)). apply fvalid_sub; [|exact Vm]. rewrite Forall_forall in Vl. apply Vl, nth_In, Hi. }
    rewrite F64Grid_proofs.fleb_val in LE by (assumption || reflexivity). change (fval zero) with 0 in LE. destruct (Rle_bool_spec (fval V) 0) as [|HH]; [discriminate|exact HH]. }
  split; [exact M'|].
  assert (Hx : x <> []) by (unfold x; intro E; apply (f_equal (@length R)) in E; rewrite map_length in E; simpl in E; unfold n in H2; lia).
  assert (Lx : length x = n) by apply map_length.
  assert (ES : total (map (fun x => (fval x - fval m) ^ 2) l) / INR (n - 1) = unbiased_variance x + INR n / INR (n - 1) * (average x - fval m) ^ 2).
  { assert (N0 : INR (n - 1) <> 0) by (apply not_0_INR; lia). unfold unbiased_variance. rewrite Lx.
    replace (total (map (fun x => (fval x - fval m) ^ 2) l)) with (total (map (fun y => (y - fval m) ^ 2) x)) by (unfold x; rewrite map_map; reflexivity).
    rewrite (sum_about x (fval m) Hx), Lx. field. exact N0. }
  rewrite ES in B. set (V := fval (calc_variance l m)) in *. 
  assert (U0 : 0 <= unbiased_variance x). { unfold unbiased_variance. apply Rmult_le_pos; [|apply Rlt_le, Rinv_0_lt_compat, lt_0_INR; lia]. clear. generalize (average x). intro c. induction x; simpl; [lra|]. pose proof (pow2_ge_0 (a - c)). simpl in *. lra. }
  set (UV := unbiased_variance x) in *.
  assert (R2 : 0 <= INR n / INR (n - 1) <= 2).
  { assert (N : 1 <= INR (n - 1)) by (apply (le_INR 1); lia). assert (NN : INR n = INR (n - 1) + 1) by (rewrite <- S_INR; f_equal; lia). split; [apply Rmult_le_pos; [lra|apply Rlt_le, Rinv_0_lt_compat; lra]|].
    apply (Rmult_le_reg_r (INR (n - 1))); [lra|]. unfold Rdiv. rewrite Rmult_assoc, Rinv_l by lra. lra. }
  assert (D2 : (average x - fval m) ^ 2 <= D ^ 2). { rewrite <- (pow2_abs (average x - fval m)), Rabs_minus_sym. pose proof (Rabs_pos (fval m - average x)). simpl. nra. }
  pose proof (pow2_ge_0 (average x - fval m)) as P2. set (Q := (average x - fval m) ^ 2) in *. set (r := INR n / INR (n - 1)) in *.
  assert (RQ : 0 <= r * Q <= 2 * D ^ 2) by nra. set (W := r * Q) in *.
  pose proof (gam_pos (n + k + 2)) as G. set (g := gam (n + k + 2)) in *. set (e := 4 * eta64 * (1 + gam n)) in *. clearbody e. set (DD := 2 * D ^ 2) in *.
  assert (g * W <= g * DD) by (apply Rmult_le_compat_l; lra).
  assert (Rabs (V - UV) <= Rabs (V - (UV + W)) + W) by (replace (V - UV) with ((V - (UV + W)) + W) at 1 by ring; eapply Rle_trans; [apply Rabs_triang|rewrite (Rabs_pos_eq W) by lra; lra]).
  change (Rabs (V - UV) <= g * UV + (1 + g) * DD + e). lra.
Qed.
End Var.
Lemma square_acc_mul : square_acc 1 (sq2 (fun x _ => mul x x)).
Proof.
  intros x V. unfold sq2. assert (Vm : fvalid (mul x x)) by now apply fvalid_mul. split; [exact Vm|]. intro F. destruct (fmul_err x x V V F) as (Fx & _ & E & _). split; [exact Fx|].
  replace (fval x ^ 2) with (fval x * fval x) by ring. replace (gam 1) with uro by (unfold gam; ring). rewrite <- (Rabs_pos_eq (fval x * fval x)) at 2 by nra. exact E.
Qed.
(** Three times 0.1: the variance is not zero. *)
Definition tenth : f64 := S754_finite false 7205759403792794 (-56).
Lemma constant_sample : exists d, @normal_from_data f64 F64_ops (F64_pops (fun x _ => mul x x)) F64_zops [tenth; tenth; tenth] = Ret d /\ ffin (no_var d) = true /\ 0 < fval (no_var d).
Proof.
  eexists. split; [vm_compute; reflexivity|]. cbn [no_var]. split; [reflexivity|]. apply F64Grid_proofs.fval_pos.
Qed.
