(** The time loop of the multistep solvers in binary64: when it ends and when it does not. *)
From Coq Require Import Arith List Bool Lia ZArith Reals Lra SpecFloat.
From Flocq Require Import Core IEEE754.BinarySingleNaN Sterbenz.
From Verif Require Import Outcome Scalar RealOps Matrix_model Vector_model Ode_model Matrix_spec Ode_spec Matrix_proofs Vector_proofs Ode_proofs OdeSolve_proofs F64_spec F64Flocq F64Err_proofs F64Grid_proofs F64Term_proofs.
Import ListNotations.
Local Open Scope R_scope.
#[local] Existing Instance Hprec53.

Lemma fabs_ok x : fvalid x -> ffin x = true -> fvalid (tabs x) /\ ffin (tabs x) = true /\ fval (tabs x) = Rabs (fval x).
Proof.
  intros V F. destruct x as [s|s| |s m e]; try discriminate F.
  - split; [reflexivity|]. split; [reflexivity|]. unfold fval, SF2R. cbn. now rewrite Rabs_R0.
  - split; [destruct s; exact V|]. split; [reflexivity|]. cbn [tabs F64_ops SFabs]. unfold fval, SF2R. rewrite <- F2R_Zabs. destruct s; reflexivity.
Qed.
Lemma c10 : fvalid (lit 1 10000000000 : f64) /\ ffin (lit 1 10000000000 : f64) = true /\ 9 / 100000000000 < fval (lit 1 10000000000) < 11 / 100000000000.
Proof.
  split; [vm_compute; reflexivity|]. split; [vm_compute; reflexivity|].
  replace (lit 1 10000000000 : f64) with (S754_finite false 7737125245533627 (-86)) by (vm_compute; reflexivity).
  unfold fval, SF2R, F2R. simpl. lra.
Qed.

Section Times.
Variables h t1 : f64.
Hypothesis Vh : fvalid h. Hypothesis Fh : ffin h = true.
Hypothesis V1 : fvalid t1. Hypothesis F1 : ffin t1 = true.

Definition tnext (t : f64) : f64 := add t (tmin h (sub t1 t)).
Definition close (t : f64) : bool := negb (ltb (lit 1 10000000000) (tabs (sub t t1))).

Lemma close_near t : fvalid t -> ffin t = true -> Rabs (fval t - fval t1) <= 5 / 100000000000 -> close t = true.
Proof.
  intros V F H. unfold close. destruct c10 as (Vc & Fc & Hc & _).
  assert (Hb : 1 <= bpow radix2 1023) by (change 1 with (bpow radix2 0); apply bpow_le; lia).
  destruct (fsub_ok t t1 V V1 F F1 ltac:(lra)) as (Vs & Fs & Es).
  destruct (fabs_ok _ Vs Fs) as (Va & Fa & Ea). rewrite fltb_val, Ea by assumption. rewrite Rlt_bool_false; [reflexivity|].
  pose proof (Rabs_triang (fval (sub t t1) - (fval t - fval t1)) (fval t - fval t1)) as Ht.
  replace (fval (sub t t1) - (fval t - fval t1) + (fval t - fval t1)) with (fval (sub t t1)) in Ht by ring. rewrite uro_val in Es. lra.
Qed.

(** The loop does not stop while the time is far from [t_stop]. *)
Lemma close_far t : fvalid t -> ffin t = true -> 2 / 10000000000 <= Rabs (fval t - fval t1) <= bpow radix2 1023 -> close t = false.
Proof.
  intros V F H. unfold close. destruct c10 as (Vc & Fc & _ & Hc).
  destruct (fsub_ok t t1 V V1 F F1 ltac:(lra)) as (Vs & Fs & Es).
  destruct (fabs_ok _ Vs Fs) as (Va & Fa & Ea). rewrite fltb_val, Ea by assumption. rewrite Rlt_bool_true; [reflexivity|].
  pose proof (Rabs_triang (fval t - fval t1 - fval (sub t t1)) (fval (sub t t1))) as Ht.
  replace (fval t - fval t1 - fval (sub t t1) + fval (sub t t1)) with (fval t - fval t1) in Ht by ring.
  rewrite <- Rabs_Ropp in Ht. rewrite (Rabs_minus_sym (fval t - fval t1)) in Ht. rewrite Rabs_Ropp in Ht. rewrite uro_val in Es. lra.
Qed.

(** A step size below 2^-55 of the time is absorbed. *)
Lemma tnext_absorb t : fvalid t -> ffin t = true -> 0 < fval h <= Rabs (fval t) * bpow radix2 (-55) -> fval t <= fval t1 ->
  fval t1 - fval t <= bpow radix2 1023 -> fvalid (tnext t) /\ ffin (tnext t) = true /\ fval (tnext t) = fval t.
Proof.
  intros V F Hh Ht Hb. destruct (fsub_ok t1 t V1 V F1 F) as (Vs & Fs & Es); [rewrite Rabs_pos_eq; lra|].
  rewrite (Rabs_pos_eq (fval t1 - fval t)) in Es by lra. rewrite uro_val in Es. apply Rabs_le_inv in Es.
  destruct (tmin_val h (sub t1 t) Vh Vs Fh Fs) as (Vm & Fm & Em). apply fadd_absorb; try assumption.
  rewrite Em. unfold Rmin. destruct (Rle_dec _ _); apply Rabs_le; lra.
Qed.

Section Ends.
Variable M : R.
Hypothesis H1 : Rabs (fval t1) <= M.
Hypothesis HM : 32 * M <= bpow radix2 1023.
Hypothesis HH : 32 * fval h <= bpow radix2 1023.
Hypothesis Hh : 0 < fval h.
Hypothesis Hr : 16 * uro * M <= fval h.

Definition Inv (t : f64) : Prop := fvalid t /\ ffin t = true /\ - M - fval h / 2 <= fval t <= fval t1 + fval h / 2.

Lemma uro_small : 0 < uro < / 1000000.
Proof. rewrite uro_val. lra. Qed.

Lemma step_far t : Inv t -> fval h <= fval (sub t1 t) -> Inv (tnext t) /\ fval t + fval h / 2 <= fval (tnext t).
Proof.
  intros (V & F & Ht) Hd. pose proof uro_small as Hu. apply Rabs_le_inv in H1 as H1'.
  destruct (fsub_ok t1 t V1 V F1 F) as (Vs & Fs & Es); [apply Rabs_le; lra|].
  assert (Hp : fval t < fval t1).
  { apply Rnot_le_lt. intro Hge. rewrite (Rabs_left1 (fval t1 - fval t)) in Es by lra. apply Rabs_le_inv in Es. nra. }
  rewrite (Rabs_pos_eq (fval t1 - fval t)) in Es by lra. apply Rabs_le_inv in Es.
  unfold Inv, tnext. assert (Eh : tmin h (sub t1 t) = h).
  { unfold tmin. rewrite fleb_val by assumption. rewrite Rle_bool_true by exact Hd. reflexivity. }
  rewrite Eh. assert (Hh5 : fval h <= 5 * M) by nra.
  assert (Hsum : Rabs (fval t + fval h) <= 2 * M) by (apply Rabs_le; nra).
  destruct (fadd_ok t h V Vh F Fh ltac:(lra)) as (Va & Fa & Ea).
  assert (He : Rabs (fval (add t h) - (fval t + fval h)) <= fval h / 8) by (eapply Rle_trans; [exact Ea|]; nra).
  apply Rabs_le_inv in He. assert (Hx : uro * (fval t1 - fval t) <= 5 * (uro * M)) by nra.
  repeat split; try assumption; lra.
Qed.

Lemma step_near t : Inv t -> fval (sub t1 t) < fval h ->
  Inv (tnext t) /\ Rabs (fval (tnext t) - fval t1) <= uro * Rabs (fval t1) + 2 * uro * Rabs (fval t - fval t1) /\
  Rabs (fval (tnext t) - fval t1) <= fval h / 2 /\
  (Rabs (fval t - fval t1) <= Rabs (fval t1) / 4 -> fval (tnext t) = fval t1).
Proof.
  intros (V & F & Ht) Hd. pose proof uro_small as Hu. apply Rabs_le_inv in H1 as H1'.
  destruct (fsub_ok t1 t V1 V F1 F) as (Vs & Fs & Es); [apply Rabs_le; lra|].
  assert (HE : Rabs (fval t - fval t1) <= 2 * fval h).
  { rewrite Rabs_minus_sym. apply Rabs_le. split; [lra|]. destruct (Rle_lt_dec (fval t1) (fval t)); [lra|].
    rewrite (Rabs_pos_eq (fval t1 - fval t)) in Es by lra. apply Rabs_le_inv in Es. nra. }
  rewrite (Rabs_minus_sym (fval t1)) in Es.
  unfold Inv, tnext. assert (Eh : tmin h (sub t1 t) = sub t1 t).
  { unfold tmin. rewrite fleb_val by assumption. rewrite Rle_bool_false by exact Hd. reflexivity. }
  rewrite Eh. set (d := sub t1 t) in *. set (X := Rabs (fval t - fval t1)) in *.
  assert (Hx0 : 0 <= X) by apply Rabs_pos.
  assert (Hs1 : Rabs (fval t + fval d) <= Rabs (fval t1) + uro * X).
  { replace (fval t + fval d) with (fval t1 + (fval d - (fval t1 - fval t))) by ring. eapply Rle_trans; [apply Rabs_triang|lra]. }
  assert (Hb : uro * X <= fval h) by nra.
  destruct (fadd_ok t d V Vs F Fs ltac:(lra)) as (Va & Fa & Ea).
  assert (HE' : Rabs (fval (add t d) - fval t1) <= uro * Rabs (fval t1) + 2 * uro * X).
  { replace (fval (add t d) - fval t1) with ((fval (add t d) - (fval t + fval d)) + (fval d - (fval t1 - fval t))) by ring.
    eapply Rle_trans; [apply Rabs_triang|]. assert (uro * Rabs (fval t + fval d) <= uro * (Rabs (fval t1) + uro * X)) by (apply Rmult_le_compat_l; lra).
    assert (uro * (uro * X) <= uro * X) by (apply Rmult_le_compat_l; [lra|]; nra). lra. }
  assert (HE2 : Rabs (fval (add t d) - fval t1) <= fval h / 2) by (eapply Rle_trans; [exact HE'|]; nra).
  apply Rabs_le_inv in HE2 as HE3.
  split; [repeat split; try assumption; lra|]. split; [exact HE'|]. split; [exact HE2|].
  intros Hq. assert (Ed : fval d = fval t1 - fval t).
  { destruct (fsub_round t1 t V1 V F1 F) as (Er & _); [apply no_ov; rewrite Rabs_minus_sym; fold X; lra|]. fold d in Er. rewrite Er.
    apply round_generic; [apply valid_rnd_N|].
    assert (HS : forall a b, fmt64 a -> fmt64 b -> Rabs (b - a) <= Rabs a / 4 -> 0 <= a -> fmt64 (a - b)).
    { intros a b Ha Hb' Hab Hp. rewrite (Rabs_pos_eq a) in Hab by exact Hp. apply Rabs_le_inv in Hab. apply sterbenz; try assumption; [typeclasses eauto| |lra]; typeclasses eauto. }
    destruct (Rle_lt_dec 0 (fval t1)) as [Hp|Hn].
    - apply HS; try apply fmt_fval; assumption.
    - replace (fval t1 - fval t) with (- (- fval t1 - - fval t)) by ring. apply generic_format_opp. apply HS; try (apply generic_format_opp, fmt_fval; assumption); [|lra].
      rewrite Rabs_Ropp. replace (- fval t - - fval t1) with (- (fval t - fval t1)) by ring. rewrite Rabs_Ropp. exact Hq. }
  destruct (fadd_round t d V Vs F Fs) as (Er & _); [apply no_ov; lra|]. rewrite Er, Ed.
  replace (fval t + (fval t1 - fval t)) with (fval t1) by ring. apply rnd_fval. exact V1.
Qed.

Fixpoint titer (n : nat) (t : f64) : f64 := match n with 0%nat => t | S k => titer k (tnext t) end.

Lemma near_sub t : Inv t -> Rabs (fval t - fval t1) <= fval h / 2 -> fval (sub t1 t) < fval h.
Proof.
  intros (V & F & Ht) HE. apply Rabs_le_inv in H1 as H1'. pose proof uro_small.
  destruct (fsub_ok t1 t V1 V F1 F) as (Vs & Fs & Es); [apply Rabs_le; lra|].
  rewrite (Rabs_minus_sym (fval t1)) in Es. apply Rabs_le_inv in Es. apply Rabs_le_inv in HE as HE'. nra.
Qed.

Lemma reach_near : forall N t, Inv t -> fval t1 - fval t <= INR N * (fval h / 2) -> exists j, Inv (titer j t) /\ fval (sub t1 (titer j t)) < fval h.
Proof.
  induction N as [|N IH]; intros t Ht HN.
  - exists 0%nat. split; [exact Ht|]. cbn [titer INR] in *. apply Rnot_le_lt. intro Hc. destruct (step_far t Ht Hc) as ((_ & _ & Hu) & Hg).
    destruct Ht as (V & F & Ht). pose proof uro_small. apply Rabs_le_inv in H1 as H1'.
    destruct (fsub_ok t1 t V1 V F1 F) as (Vs & Fs & Es); [apply Rabs_le; lra|]. rewrite (Rabs_left1 (fval t1 - fval t)) in Es by lra. apply Rabs_le_inv in Es. nra.
  - destruct (Rlt_le_dec (fval (sub t1 t)) (fval h)) as [Hc|Hc]; [exists 0%nat; split; assumption|].
    destruct (step_far t Ht Hc) as (Hi & Hg). destruct (IH (tnext t) Hi) as (j & Hj); [rewrite S_INR in HN; lra|]. exists (S j). exact Hj.
Qed.

Lemma shrink : forall j t, Inv t -> Rabs (fval t - fval t1) <= fval h / 2 ->
  Inv (titer j t) /\ Rabs (fval (titer j t) - fval t1) <= fval h / 2 /\
  Rabs (fval (titer j t) - fval t1) <= 2 * uro * Rabs (fval t1) + (2 * uro) ^ j * fval h.
Proof.
  pose proof uro_small as Hu.
  assert (G : forall j t c, Inv t -> Rabs (fval t - fval t1) <= fval h / 2 -> 0 <= c -> Rabs (fval t - fval t1) <= 2 * uro * Rabs (fval t1) + c ->
    Inv (titer j t) /\ Rabs (fval (titer j t) - fval t1) <= fval h / 2 /\ Rabs (fval (titer j t) - fval t1) <= 2 * uro * Rabs (fval t1) + (2 * uro) ^ j * c).
  { induction j as [|j IH]; intros t c Ht HE Hc Hb; cbn [titer pow]; [rewrite Rmult_1_l; auto|].
    destruct (step_near t Ht (near_sub t Ht HE)) as (Hi & E1 & E2 & _).
    replace (2 * uro * (2 * uro) ^ j * c) with ((2 * uro) ^ j * (2 * uro * c)) by ring.
    apply IH; try assumption; [nra|]. pose proof (Rabs_pos (fval t1)). eapply Rle_trans; [exact E1|].
    assert (2 * uro * Rabs (fval t - fval t1) <= 2 * uro * (2 * uro * Rabs (fval t1) + c)) by (apply Rmult_le_compat_l; lra).
    assert (0 <= uro * Rabs (fval t1)) by (apply Rmult_le_pos; lra). assert (4 * uro * (uro * Rabs (fval t1)) <= 1 * (uro * Rabs (fval t1))) by (apply Rmult_le_compat_r; lra). lra. }
  intros j t Ht HE. apply G; try assumption; [lra|]. pose proof (Rabs_pos (fval t1)). nra.
Qed.

Lemma times_end t : Inv t -> exists j, close (titer j t) = true.
Proof.
  intros Ht. pose proof uro_small as Hu.
  assert (HN : exists N, fval t1 - fval t <= INR N * (fval h / 2)).
  { destruct (archimed (Rabs ((fval t1 - fval t) / (fval h / 2)))) as [A _]. pose proof (Rle_abs ((fval t1 - fval t) / (fval h / 2))) as B.
    pose proof (Rabs_pos ((fval t1 - fval t) / (fval h / 2))) as C.
    exists (Z.to_nat (up (Rabs ((fval t1 - fval t) / (fval h / 2))))). rewrite INR_IZR_INZ, Z2Nat.id by (apply le_IZR; lra).
    apply Rmult_le_reg_r with (/ (fval h / 2)); [apply Rinv_0_lt_compat; lra|]. rewrite Rmult_assoc, Rinv_r by lra. rewrite Rmult_1_r. unfold Rdiv in *. lra. }
  destruct HN as (N & HN). destruct (reach_near N t Ht HN) as (j & Hj & Hn).
  destruct (step_near _ Hj Hn) as (Hi & _ & HE & _). set (s := tnext (titer j t)) in *.
  destruct (pow_lt_1_zero (2 * uro) ltac:(rewrite Rabs_pos_eq; lra) (/ 1000000000000 / fval h)) as (k & Hk); [apply Rdiv_lt_0_compat; lra|].
  specialize (Hk k (le_n k)). rewrite Rabs_pos_eq in Hk by (apply pow_le; lra).
  destruct (shrink k s Hi HE) as (Hik & HEk & HBk).
  assert (Hc : (2 * uro) ^ k * fval h <= / 1000000000000).
  { replace (/ 1000000000000) with (/ 1000000000000 / fval h * fval h) by (field; lra). apply Rmult_le_compat_r; lra. }
  assert (Happ : forall a b u, titer (a + b) u = titer b (titer a u)) by (induction a as [|a IHa]; intros b u; [reflexivity|apply IHa]).
  assert (Es : forall k, titer (j + S k) t = titer k s) by (intros k'; rewrite Happ; reflexivity).
  pose proof (Rabs_pos (fval t1)) as Hp.
  destruct (Rle_lt_dec (/ 100000000000) (Rabs (fval t1))) as [Hb|Hb].
  - exists (j + S (k + 1))%nat. rewrite Es, Happ. cbn [titer].
    destruct (step_near _ Hik (near_sub _ Hik HEk)) as ((V & F & _) & _ & _ & Ex). apply close_near; [exact V|exact F|].
    rewrite Ex; [rewrite Rminus_diag_eq by reflexivity; rewrite Rabs_R0; lra|]. eapply Rle_trans; [exact HBk|]. nra.
  - exists (j + S k)%nat. rewrite Es. destruct Hik as (V & F & _). apply close_near; [exact V|exact F|]. eapply Rle_trans; [exact HBk|]. nra.
Qed.
End Ends.

(** The solvers run over these times. *)
Variable step : nat -> rhs (T := f64) -> list f64 -> list (vector f64) -> f64 -> outcome (vector f64).
Variable f : rhs (T := f64).

Lemma push_time j tv xv tn st : ms_push step f h t1 j (tv, xv, tn) = Ret st -> snd st = tnext tn.
Proof. cbn [ms_push]. destruct (step j f tv xv _); cbn [bind]; intros E; [injection E as <-; reflexivity|discriminate E]. Qed.

Lemma loop_ends : forall j k st fuel, close (titer j (snd st)) = true -> (j <= fuel)%nat -> ms_loop step f h t1 fuel k st <> Ret None.
Proof.
  induction j as [|j IH]; intros k [[tv xv] tn] fuel Hc Hf; cbn [snd titer] in Hc.
  - unfold close in Hc. apply negb_true_iff in Hc. destruct fuel; cbn [ms_loop]; rewrite Hc; discriminate.
  - destruct fuel as [|fuel]; [lia|]. cbn [ms_loop]. destruct (ltb _ _); [|discriminate].
    destruct (ms_push step f h t1 k (tv, xv, tn)) as [st|] eqn:E; cbn [bind]; [|discriminate].
    apply IH; [|lia]. rewrite (push_time _ _ _ _ _ E). exact Hc.
Qed.
End Times.

Lemma titer_app h t1 : forall a b u, titer h t1 (a + b) u = titer h t1 b (titer h t1 a u).
Proof. induction a as [|a IHa]; intros b u; [reflexivity|apply IHa]. Qed.

Lemma startup_time h t1 step f j0 k st st' : for_loop j0 k (ms_push step f h t1) st = Ret st' -> snd st' = titer h t1 (k - j0) (snd st).
Proof.
  intros E. destruct (Nat.le_gt_cases j0 k) as [H|H].
  - refine (for_loop_inv (fun i s => snd s = titer h t1 (i - j0) (snd st)) _ _ _ _ _ E H _ _); [now rewrite Nat.sub_diag|].
    intros i [[tv xv] tn] s' Hi Hs Ep. rewrite (push_time h t1 step f i tv xv tn s' Ep). cbn [snd] in Hs. rewrite Hs.
    replace (S i - j0)%nat with (i - j0 + 1)%nat by lia. now rewrite titer_app.
  - rewrite for_loop_nil in E by lia. injection E as <-. replace (k - j0)%nat with 0%nat by lia. reflexivity.
Qed.

Lemma titer_inv h t1 M : fvalid h -> ffin h = true -> fvalid t1 -> ffin t1 = true -> Rabs (fval t1) <= M -> 32 * M <= bpow radix2 1023 ->
  32 * fval h <= bpow radix2 1023 -> 0 < fval h -> 16 * uro * M <= fval h -> forall j t, Inv h t1 M t -> Inv h t1 M (titer h t1 j t).
Proof.
  intros Vh Fh V1 F1 H1 HM HH Hh Hr. induction j as [|j IH]; intros t Ht; [exact Ht|]. cbn [titer]. apply IH.
  destruct (Rlt_le_dec (fval (sub t1 t)) (fval h)) as [Hc|Hc].
  - apply (step_near h t1 Vh Fh V1 F1 M H1 HM HH Hh Hr t Ht Hc).
  - apply (step_far h t1 Vh Fh V1 F1 M H1 HM HH Hh Hr t Ht Hc).
Qed.

(** With a step size of at least 2^-49 of the times, the solver comes back (or panics) after a number of steps that does not depend on the equation. *)
Lemma ms_ends h t1 t0 k : fvalid h -> ffin h = true -> fvalid t1 -> ffin t1 = true -> fvalid t0 -> ffin t0 = true ->
  Rabs (fval t0) <= bpow radix2 1018 -> Rabs (fval t1) <= bpow radix2 1018 -> fval h <= bpow radix2 1018 -> fval t0 <= fval t1 ->
  0 < fval h -> bpow radix2 (-49) * Rmax (Rabs (fval t0)) (Rabs (fval t1)) <= fval h ->
  exists N, forall step f fuel init, (N <= fuel)%nat -> ms_solve step f h t1 fuel k t0 init <> Ret None.
Proof.
  intros Vh Fh V1 F1 V0 F0 B0 B1 Bh H01 Hh Hr. set (M := Rmax (Rabs (fval t0)) (Rabs (fval t1))) in *.
  assert (E32 : bpow radix2 1023 = 32 * bpow radix2 1018) by (replace 1023%Z with (5 + 1018)%Z by lia; rewrite bpow_plus; replace (bpow radix2 5) with 32 by (simpl; lra); reflexivity).
  assert (HM : 32 * M <= bpow radix2 1023) by (rewrite E32; unfold M, Rmax; destruct (Rle_dec _ _); lra).
  assert (HH : 32 * fval h <= bpow radix2 1023) by lra.
  assert (H1 : Rabs (fval t1) <= M) by apply Rmax_r.
  assert (H0 : Rabs (fval t0) <= M) by apply Rmax_l.
  assert (Hr' : 16 * uro * M <= fval h) by (unfold uro; replace (16 * bpow radix2 (-53)) with (bpow radix2 (-49)) by (simpl; lra); exact Hr).
  assert (HI : Inv h t1 M t0) by (split; [exact V0|]; split; [exact F0|]; apply Rabs_le_inv in H0; lra).
  pose proof (titer_inv h t1 M Vh Fh V1 F1 H1 HM HH Hh Hr' (k - 1) t0 HI) as HI'.
  destruct (times_end h t1 Vh Fh V1 F1 M H1 HM HH Hh Hr' _ HI') as (N & HN). exists N.
  intros step f fuel init Hf. unfold ms_solve. destruct (ltb t1 t0); [discriminate|].
  destruct (for_loop 1 k (ms_push step f h t1) ([t0], [init], t0)) as [st|] eqn:Es; cbn [bind]; [|discriminate].
  apply (loop_ends h t1 step f N); [|exact Hf]. rewrite (startup_time _ _ _ _ _ _ _ _ Es). exact HN.
Qed.

(** With a step size below 2^-55 of the start time it never does. *)
Lemma ms_endless h t1 t0 k : fvalid h -> ffin h = true -> fvalid t1 -> ffin t1 = true -> fvalid t0 -> ffin t0 = true ->
  0 < fval h <= bpow radix2 (-55) * Rabs (fval t0) -> 2 / 10000000000 <= fval t1 - fval t0 <= bpow radix2 1023 ->
  forall step f fuel init r, ms_solve step f h t1 fuel k t0 init <> Ret (Some r).
Proof.
  intros Vh Fh V1 F1 V0 F0 Hh Ht step f fuel init r.
  assert (HI : forall j t, fvalid t -> ffin t = true -> fval t = fval t0 -> let s := titer h t1 j t in fvalid s /\ ffin s = true /\ fval s = fval t0).
  { induction j as [|j IH]; intros t V F E; [auto|]. cbn [titer]. destruct (tnext_absorb h t1 Vh Fh V1 F1 t V F) as (V' & F' & E').
    - rewrite E. lra.
    - lra.
    - lra.
    - apply IH; [exact V'|exact F'|congruence]. }
  unfold ms_solve. destruct (ltb t1 t0); [discriminate|].
  destruct (for_loop 1 k (ms_push step f h t1) ([t0], [init], t0)) as [st|] eqn:Es; cbn [bind]; [|discriminate].
  pose proof (startup_time _ _ _ _ _ _ _ _ Es) as Et. cbn [snd] in Et. destruct (HI (k - 1)%nat t0 V0 F0 eq_refl) as (Vs & Fs & Hs).
  cbv zeta in Hs. rewrite <- Et in Vs, Fs, Hs. clear Es Et. revert st Vs Fs Hs.
  induction fuel as [|fuel IH]; intros [[tv xv] tn] Vs Fs Hs; cbn [snd] in *; cbn [ms_loop];
    (assert (Hc : close t1 tn = false) by (apply close_far; try assumption; rewrite Hs, Rabs_minus_sym, Rabs_pos_eq; lra));
    unfold close in Hc; apply negb_false_iff in Hc; rewrite Hc; [discriminate|].
  destruct (ms_push step f h t1 k (tv, xv, tn)) as [st|] eqn:Ep; cbn [bind]; [|discriminate].
  pose proof (push_time h t1 step f k tv xv tn st Ep) as Et. destruct (HI 1%nat tn Vs Fs Hs) as (V' & F' & H'). cbn [titer] in *. rewrite <- Et in V', F', H'.
  apply IH; assumption.
Qed.

(** ** The adaptive driver when the method yields NaN *)
Lemma nan_sum n (f : nat -> f64) : (0 < n)%nat -> f 0%nat = S754_nan -> sumn n f = S754_nan.
Proof.
  intros Hn H. induction n as [|n IH]; [lia|]. cbn [sumn]. destruct n as [|n]; [cbn [sumn]; rewrite H; apply nan_add_r|].
  rewrite IH by lia. destruct (f (S n)); reflexivity.
Qed.
Lemma adapt_endless pw (p : pcontrol (T := f64)) (step : stepfn2 (T := f64)) l t1 m : (0 < m)%nat ->
  pw S754_nan (S754_finite false 4503599627370496 (-53)) = S754_nan ->
  forall xn tn, (forall h, exists y yh a b, step tn xn h = Ret (y, yh) /\ is_col y m a /\ is_col yh m b /\ a 0%nat = S754_nan) ->
  forall fuel tv xv h n, ltb tn t1 = true -> (n < n_max p)%nat ->
  @adapt_loop f64 F64_ops (F64_pops pw) p step l t1 fuel tv xv tn xn h n = Ret None.
Proof.
  intros Hm Hpw xn tn Hst. induction fuel as [|fuel IH]; intros tv xv h n Ht Hn; cbn [adapt_loop];
    replace (n <? n_max p)%nat with true by (symmetry; apply Nat.ltb_lt; exact Hn); rewrite Ht; cbn [andb]; [reflexivity|].
  destruct (Hst (tmin h (sub t1 tn))) as (y & yh & a & b & Es & Hy & Hyh & Ha). rewrite Es. cbn [bind fst snd].
  assert (Ee : @calc_error f64 F64_ops (F64_pops pw) p y yh = Ret S754_nan).
  { rewrite (calc_error_col p y yh m a b Hm Hy Hyh), Ha. f_equal.
    replace (sub (S754_nan : f64) (b 0%nat)) with (S754_nan : f64) by (destruct (b 0%nat); reflexivity).
    exact Hpw. }
  rewrite Ee. cbn [bind]. change (leb (S754_nan : f64) one) with false. cbv iota. apply IH; assumption.
Qed.
Lemma adapt_solve_nan pw (p : pcontrol (T := f64)) (B : tableau2 f64) q f m (t0 t1 : f64) init g k0 K :
  pw S754_nan (S754_finite false 4503599627370496 (-53)) = S754_nan -> (0 < m)%nat -> (0 < n_max p)%nat ->
  (1 <= length (tb2 B))%nat -> tableau_ok (ta2 B) (tb2 B) (tc2 B) -> (length (tbs2 B) <= length (tb2 B))%nat ->
  is_col init m g -> rhs_total f m -> f t0 init = Ret k0 -> is_col k0 m K -> K 0%nat = S754_nan -> ltb t0 t1 = true -> ltb t1 t0 = false ->
  forall fuel, @adapt_solve f64 F64_ops (F64_pops pw) p (do_step2 B f) q fuel t0 t1 init = Ret None.
Proof.
  intros Hpw Hm Hn Hb Hok Hbs Hi Hf Ek HK HN Ht Ht' fuel. unfold adapt_solve. rewrite Ht'. cbv zeta.
  rewrite (adapt_endless pw p (do_step2 B f) _ t1 m Hm Hpw init t0); [reflexivity| |exact Ht|exact Hn].
  intros h. destruct (do_step2_spec B f m t0 init g h Hb Hok Hbs Hi Hf) as (r & rs & KK & E & ((k0' & E0 & Hk0) & _) & Hr & Hrs).
  rewrite Ek in E0. injection E0 as <-. eexists r, rs, _, _. split; [exact E|]. split; [exact Hr|]. split; [exact Hrs|]. cbv beta.
  assert (EK : KK 0%nat 0%nat = S754_nan).
  { pose proof (col_get k0 m _ 0 Hk0 Hm) as G. rewrite (col_get k0 m _ 0 HK Hm) in G. injection G as <-. exact HN. }
  rewrite nan_sum; [|lia|rewrite EK; destruct (b_of (tb2 B) 0); reflexivity].
  replace (mul (S754_nan : f64) h) with (S754_nan : f64) by (destruct h; reflexivity). apply nan_add_r.
Qed.
