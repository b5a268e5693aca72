(** Explicit Runge-Kutta steps in binary64 against the same steps in exact arithmetic. *)
From Coq Require Import Arith List Bool Lia ZArith Reals Lra Psatz SpecFloat.
From Flocq Require Import Core IEEE754.BinarySingleNaN.
From Verif Require Import Outcome Scalar RealOps Matrix_model Vector_model Int_model Ode_model Matrix_spec Ode_spec Optim_spec OdeConv_spec Matrix_proofs Vector_proofs Ode_proofs OdeConv_proofs OdeGlobal_proofs
  F64_spec F64Flocq F64Err_proofs F64Grid_proofs F64Ode_spec F64Euler_proofs.
Import ListNotations.
Local Open Scope R_scope.
#[local] Existing Instance Hprec53.

Lemma fcol_unique (v : vector f64) m g g' i : is_col v m g -> is_col v m g' -> (i < m)%nat -> g i = g' i.
Proof. intros (_ & _ & H1) (_ & _ & H2) Hi. specialize (H1 i 0%nat Hi Nat.lt_0_1). specialize (H2 i 0%nat Hi Nat.lt_0_1). rewrite H1 in H2. injection H2 as ->. reflexivity. Qed.
Lemma rcol_unique (v : vector R) m g g' i : is_col v m g -> is_col v m g' -> (i < m)%nat -> g i = g' i.
Proof. intros (_ & _ & H1) (_ & _ & H2) Hi. specialize (H1 i 0%nat Hi Nat.lt_0_1). specialize (H2 i 0%nat Hi Nat.lt_0_1). rewrite H1 in H2. injection H2 as ->. reflexivity. Qed.

Lemma bpow_990 : 1024 * bpow radix2 990 = bpow radix2 1000.
Proof. change (bpow radix2 1000) with (bpow radix2 (10 + 990)). rewrite bpow_plus. reflexivity. Qed.
Lemma bpow_1000 : 4 * bpow radix2 1000 + 1 <= bpow radix2 1023.
Proof.
  change (bpow radix2 1023) with (bpow radix2 (3 + (20 + 1000))). rewrite bpow_plus. change (bpow radix2 3) with 8.
  assert (1 <= bpow radix2 1000) by (change 1 with (bpow radix2 0); apply bpow_le; lia).
  assert (bpow radix2 1000 <= bpow radix2 (20 + 1000)) by (apply bpow_le; lia). lra.
Qed.
Lemma small_consts : 0 < uro <= / 1000000000 /\ 0 < eta64 <= / 1000000000.
Proof.
  split; [rewrite uro_val; lra|]. split; [apply eta64_pos|]. unfold eta64. eapply Rle_trans; [apply (bpow_le radix2 _ (-30)); lia|].
  change (bpow radix2 (-30)) with (/ 1073741824). lra.
Qed.

(** Sum of products with rounded coefficients. *)
Lemma fdot_ok n (k a64 : nat -> f64) (a : nat -> R) Kb A : (n <= 16)%nat -> 0 <= Kb -> A * Kb <= bpow radix2 990 ->
  (forall l, (l < n)%nat -> fvalid (k l) /\ ffin (k l) = true /\ Rabs (fval (k l)) <= Kb) ->
  (forall l, (l < n)%nat -> close64 (a64 l) (a l)) -> sumn n (fun l => Rabs (a l)) <= A ->
  let q := sumn n (fun l => mul (k l) (a64 l)) in
  fvalid q /\ ffin q = true /\ Rabs (fval q - sumn n (fun l => fval (k l) * a l)) <= (2 * INR n + 3) * uro * (Kb * sumn n (fun l => Rabs (a l))) + 2 * INR n * eta64 /\
  Rabs (sumn n (fun l => fval (k l) * a l)) <= Kb * sumn n (fun l => Rabs (a l)).
Proof.
  intros Hn HK HA Hk Ha HS. pose proof small_consts as ((U0 & U1) & (T0 & T1)). pose proof bpow_990 as B9. pose proof bpow_1000 as B10.
  assert (B0 : 1 <= bpow radix2 990) by (change 1 with (bpow radix2 0); apply bpow_le; lia).
  revert Hn Hk Ha HS. induction n as [|n IH]; intros Hn Hk Ha HS; cbv zeta.
  - cbn [sumn INR]. split; [reflexivity|]. split; [reflexivity|]. change (fval zero) with 0. change (@zero R R_ops) with 0. rewrite Rminus_eq_0, Rabs_R0. split; lra.
  - assert (S0 : 0 <= sumn n (fun l => Rabs (a l))) by (apply sumR_nonneg; intros; apply Rabs_pos).
    cbn [sumn] in HS |- *. change (@add R R_ops) with Rplus in *. set (S := sumn n (fun l => Rabs (a l))) in *.
    destruct (IH ltac:(lia) (fun l Hl => Hk l ltac:(lia)) (fun l Hl => Ha l ltac:(lia)) ltac:(pose proof (Rabs_pos (a n)); lra)) as (V & F & E & Bq).
    set (q := sumn n (fun l => mul (k l) (a64 l))) in *. set (e := sumn n (fun l => fval (k l) * a l)) in *.
    destruct (Hk n ltac:(lia)) as (Vk & Fk & Bk). destruct (Ha n ltac:(lia)) as (Va & Fa & Ea).
    rewrite S_INR. assert (N16 : 0 <= INR n <= 16) by (split; [apply pos_INR|]; replace 16 with (INR 16) by (cbn; lra); apply le_INR; lia).
    set (al := Rabs (a n)) in *. assert (al0 : 0 <= al) by apply Rabs_pos.
    assert (KS : Kb * S <= A * Kb) by (rewrite (Rmult_comm A); apply Rmult_le_compat_l; lra).
    assert (Kal : Kb * al <= A * Kb) by (rewrite (Rmult_comm A); apply Rmult_le_compat_l; lra).
    assert (KS0 : 0 <= Kb * S) by (apply Rmult_le_pos; lra). assert (Ka0 : 0 <= Kb * al) by (apply Rmult_le_pos; lra).
    assert (Aa : Rabs (fval (a64 n)) <= al + uro * al).
    { replace (fval (a64 n)) with ((fval (a64 n) - a n) + a n) by ring. eapply Rle_trans; [apply Rabs_triang|]. fold al. lra. }
    assert (P1 : Rabs (fval (k n) * fval (a64 n)) <= Kb * al + uro * (Kb * al)).
    { rewrite Rabs_mult. replace (Kb * al + uro * (Kb * al)) with (Kb * (al + uro * al)) by ring. apply Rmult_le_compat; try apply Rabs_pos; assumption. }
    assert (P2 : Rabs (fval (k n) * fval (a64 n) - fval (k n) * a n) <= uro * (Kb * al)).
    { replace (fval (k n) * fval (a64 n) - fval (k n) * a n) with (fval (k n) * (fval (a64 n) - a n)) by ring. rewrite Rabs_mult.
      replace (uro * (Kb * al)) with (Kb * (uro * al)) by ring. apply Rmult_le_compat; try apply Rabs_pos; assumption. }
    assert (UK : 0 <= uro * (Kb * al) <= / 1000000000 * (Kb * al)) by (split; [apply Rmult_le_pos; lra|apply Rmult_le_compat_r; lra]).
    destruct (fmul_ok (k n) (a64 n) Vk Va Fk Fa ltac:(lra)) as (Vm & Fm & Em).
    set (p := mul (k n) (a64 n)) in *.
    assert (Em' : Rabs (fval p - fval (k n) * a n) <= 201 / 100 * uro * (Kb * al) + eta64).
    { replace (fval p - fval (k n) * a n) with ((fval p - fval (k n) * fval (a64 n)) + (fval (k n) * fval (a64 n) - fval (k n) * a n)) by ring.
      eapply Rle_trans; [apply Rabs_triang|].
      assert (uro * Rabs (fval (k n) * fval (a64 n)) <= uro * (Kb * al + uro * (Kb * al))) by (apply Rmult_le_compat_l; lra).
      assert (uro * (uro * (Kb * al)) <= / 1000000000 * (uro * (Kb * al))) by (apply Rmult_le_compat_r; lra). lra. }
    assert (P3 : Rabs (fval (k n) * a n) <= Kb * al) by (rewrite Rabs_mult; apply Rmult_le_compat; try apply Rabs_pos; [exact Bk|apply Rle_refl]).
    assert (UE : 0 <= uro * (Kb * S) <= / 1000000000 * (Kb * S)) by (split; [apply Rmult_le_pos; lra|apply Rmult_le_compat_r; lra]).
    assert (E1 : (2 * INR n + 3) * uro * (Kb * S) <= 35 * (uro * (Kb * S))) by (rewrite Rmult_assoc; apply Rmult_le_compat_r; lra).
    assert (E2 : 2 * INR n * eta64 <= 32 * eta64) by (apply Rmult_le_compat_r; lra).
    assert (Sm : Rabs (fval q + fval p) <= Kb * (S + al) + ((2 * INR n + 3) * uro * (Kb * S) + 2 * INR n * eta64) + (201 / 100 * uro * (Kb * al) + eta64)).
    { replace (fval q + fval p) with (e + fval (k n) * a n + (fval q - e) + (fval p - fval (k n) * a n)) by ring.
      eapply Rle_trans; [apply Rabs_triang|]. apply Rplus_le_compat; [|exact Em']. eapply Rle_trans; [apply Rabs_triang|]. apply Rplus_le_compat; [|exact E].
      eapply Rle_trans; [apply Rabs_triang|]. rewrite Rmult_plus_distr_l. apply Rplus_le_compat; assumption. }
    destruct (fadd_ok q p V Vm F Fm ltac:(lra)) as (Vs & Fs & Es). split; [exact Vs|]. split; [exact Fs|]. split.
    + change (@mul R R_ops) with Rmult.
      replace (fval (add q p) - (e + fval (k n) * a n)) with ((fval (add q p) - (fval q + fval p)) + (fval q - e) + (fval p - fval (k n) * a n)) by ring.
      eapply Rle_trans; [apply Rabs_triang|]. eapply Rle_trans; [apply Rplus_le_compat_r, Rabs_triang|].
      assert (Es' : uro * Rabs (fval q + fval p) <= uro * (Kb * (S + al)) + uro * (35 * (uro * (Kb * S)) + 32 * eta64 + (201 / 100 * uro * (Kb * al) + eta64))).
      { rewrite <- Rmult_plus_distr_l. apply Rmult_le_compat_l; lra. }
      assert (Z1 : uro * (35 * (uro * (Kb * S))) <= / 10 * (uro * (Kb * S))) by (replace (uro * (35 * (uro * (Kb * S)))) with (35 * uro * (uro * (Kb * S))) by ring; apply Rmult_le_compat_r; lra).
      assert (Z2 : uro * (201 / 100 * uro * (Kb * al)) <= / 10 * (uro * (Kb * al))) by (replace (uro * (201 / 100 * uro * (Kb * al))) with (201 / 100 * uro * (uro * (Kb * al))) by ring; apply Rmult_le_compat_r; lra).
      assert (Z3 : uro * (32 * eta64 + eta64) <= / 10 * eta64) by (replace (uro * (32 * eta64 + eta64)) with (33 * uro * eta64) by ring; apply Rmult_le_compat_r; lra).
      assert (Z4 : 0 <= INR n * (uro * (Kb * al))) by (apply Rmult_le_pos; lra).
      lra.
    + change (@mul R R_ops) with Rmult. eapply Rle_trans; [apply Rabs_triang|]. rewrite Rmult_plus_distr_l. apply Rplus_le_compat; assumption.
Qed.

(** x + sum * s. *)
Lemma comb_ok (g q s : f64) sg P w Xg : fvalid g -> fvalid q -> fvalid s -> ffin g = true -> ffin q = true -> ffin s = true ->
  Rabs (fval g) <= Xg -> Rabs (fval s) <= w -> Rabs sg <= P -> Rabs (fval q - sg) <= 35 * uro * P + 32 * eta64 ->
  Xg + w * P <= bpow radix2 1000 -> w <= bpow radix2 1000 ->
  let r := add g (mul q s) in
  fvalid r /\ ffin r = true /\ Rabs (fval r - (fval g + sg * fval s)) <= uro * (Xg + 39 * w * P) + (33 * w + 2) * eta64.
Proof.
  intros Vg Vq Vs Fg Fq Fs Bg Bs BP Eq Bov Bw r. pose proof small_consts as ((U0 & U1) & (T0 & T1)). pose proof bpow_1000 as B10.
  assert (P0 : 0 <= P) by (pose proof (Rabs_pos sg); lra). assert (w0 : 0 <= w) by (pose proof (Rabs_pos (fval s)); lra). assert (X0 : 0 <= Xg) by (pose proof (Rabs_pos (fval g)); lra).
  assert (wP : 0 <= w * P) by (apply Rmult_le_pos; lra).
  assert (UP : 0 <= uro * (w * P) <= / 1000000000 * (w * P)) by (split; [apply Rmult_le_pos; lra|apply Rmult_le_compat_r; lra]).
  assert (TW : 0 <= w * eta64 <= w * / 1000000000) by (split; [apply Rmult_le_pos; lra|apply Rmult_le_compat_l; lra]).
  assert (D1 : Rabs (fval q * fval s - sg * fval s) <= 35 * (uro * (w * P)) + 32 * (w * eta64)).
  { replace (fval q * fval s - sg * fval s) with ((fval q - sg) * fval s) by ring. rewrite Rabs_mult.
    replace (35 * (uro * (w * P)) + 32 * (w * eta64)) with ((35 * uro * P + 32 * eta64) * w) by ring. apply Rmult_le_compat; try apply Rabs_pos; assumption. }
  assert (D2 : Rabs (sg * fval s) <= w * P) by (rewrite Rabs_mult, Rmult_comm; apply Rmult_le_compat; try apply Rabs_pos; assumption).
  assert (D3 : Rabs (fval q * fval s) <= w * P + (35 * (uro * (w * P)) + 32 * (w * eta64))).
  { replace (fval q * fval s) with (sg * fval s + (fval q * fval s - sg * fval s)) by ring. eapply Rle_trans; [apply Rabs_triang|]. lra. }
  destruct (fmul_ok q s Vq Vs Fq Fs ltac:(lra)) as (Vm & Fm & Em). set (p := mul q s) in *.
  assert (Z1 : uro * (35 * (uro * (w * P))) <= / 10 * (uro * (w * P))) by (replace (uro * (35 * (uro * (w * P)))) with (35 * uro * (uro * (w * P))) by ring; apply Rmult_le_compat_r; lra).
  assert (Z2 : uro * (32 * (w * eta64)) <= / 10 * (w * eta64)) by (replace (uro * (32 * (w * eta64))) with (32 * uro * (w * eta64)) by ring; apply Rmult_le_compat_r; lra).
  assert (Em' : Rabs (fval p - fval q * fval s) <= 11 / 10 * (uro * (w * P)) + / 10 * (w * eta64) + eta64).
  { eapply Rle_trans; [exact Em|]. assert (uro * Rabs (fval q * fval s) <= uro * (w * P + (35 * (uro * (w * P)) + 32 * (w * eta64)))) by (apply Rmult_le_compat_l; lra). lra. }
  assert (D4 : Rabs (fval g + fval p) <= Xg + 11 / 10 * (w * P) + 33 * (w * eta64) + eta64).
  { replace (fval g + fval p) with (fval g + fval q * fval s + (fval p - fval q * fval s)) by ring. eapply Rle_trans; [apply Rabs_triang|].
    eapply Rle_trans; [apply Rplus_le_compat_r, Rabs_triang|]. lra. }
  destruct (fadd_ok g p Vg Vm Fg Fm ltac:(lra)) as (Vr & Fr & Er). fold r in Vr, Fr, Er. split; [exact Vr|]. split; [exact Fr|].
  replace (fval r - (fval g + sg * fval s)) with ((fval r - (fval g + fval p)) + (fval p - fval q * fval s) + (fval q * fval s - sg * fval s)) by ring.
  eapply Rle_trans; [apply Rabs_triang|]. eapply Rle_trans; [apply Rplus_le_compat_r, Rabs_triang|].
  assert (uro * Rabs (fval g + fval p) <= uro * (Xg + 11 / 10 * (w * P) + 33 * (w * eta64) + eta64)) by (apply Rmult_le_compat_l; lra).
  assert (Z3 : uro * (33 * (w * eta64) + eta64) <= / 10 * (w * eta64) + / 10 * eta64).
  { replace (uro * (33 * (w * eta64) + eta64)) with (33 * uro * (w * eta64) + uro * eta64) by ring. apply Rplus_le_compat; apply Rmult_le_compat_r; lra. }
  lra.
Qed.

(** t + c * s. *)
Lemma node_ok (t c64 s : f64) c w Mt : fvalid t -> fvalid s -> ffin t = true -> ffin s = true -> close64 c64 c -> 0 <= c <= 1 ->
  Rabs (fval t) <= Mt -> Rabs (fval s) <= w -> Mt + w <= bpow radix2 1000 ->
  let r := add t (mul c64 s) in
  fvalid r /\ ffin r = true /\ Rabs (fval r - (fval t + c * fval s)) <= uro * (Mt + 4 * w) + 2 * eta64.
Proof.
  intros Vt Vs Ft Fs (Vc & Fc & Ec) Hc Bt Bs Bov r. pose proof small_consts as ((U0 & U1) & (T0 & T1)). pose proof bpow_1000 as B10.
  assert (w0 : 0 <= w) by (pose proof (Rabs_pos (fval s)); lra). assert (M0 : 0 <= Mt) by (pose proof (Rabs_pos (fval t)); lra).
  rewrite (Rabs_pos_eq c) in Ec by lra. assert (Ec' : Rabs (fval c64 - c) <= uro) by (eapply Rle_trans; [exact Ec|]; rewrite <- (Rmult_1_r uro) at 2; apply Rmult_le_compat_l; lra).
  assert (UW : 0 <= uro * w <= / 1000000000 * w) by (split; [apply Rmult_le_pos; lra|apply Rmult_le_compat_r; lra]).
  assert (D1 : Rabs (fval c64 * fval s - c * fval s) <= uro * w).
  { replace (fval c64 * fval s - c * fval s) with ((fval c64 - c) * fval s) by ring. rewrite Rabs_mult. apply Rmult_le_compat; try apply Rabs_pos; assumption. }
  assert (D2 : Rabs (c * fval s) <= w).
  { rewrite Rabs_mult, (Rabs_pos_eq c) by lra. rewrite <- (Rmult_1_l w). apply Rmult_le_compat; try apply Rabs_pos; lra. }
  assert (D3 : Rabs (fval c64 * fval s) <= w + uro * w).
  { replace (fval c64 * fval s) with (c * fval s + (fval c64 * fval s - c * fval s)) by ring. eapply Rle_trans; [apply Rabs_triang|]. lra. }
  destruct (fmul_ok c64 s Vc Vs Fc Fs ltac:(lra)) as (Vm & Fm & Em). set (p := mul c64 s) in *.
  assert (Z1 : uro * (uro * w) <= / 10 * (uro * w)) by (apply Rmult_le_compat_r; lra).
  assert (Em' : Rabs (fval p - fval c64 * fval s) <= 11 / 10 * (uro * w) + eta64).
  { eapply Rle_trans; [exact Em|]. assert (uro * Rabs (fval c64 * fval s) <= uro * (w + uro * w)) by (apply Rmult_le_compat_l; lra). lra. }
  assert (D4 : Rabs (fval t + fval p) <= Mt + 11 / 10 * w + eta64).
  { replace (fval t + fval p) with (fval t + fval c64 * fval s + (fval p - fval c64 * fval s)) by ring. eapply Rle_trans; [apply Rabs_triang|].
    eapply Rle_trans; [apply Rplus_le_compat_r, Rabs_triang|]. lra. }
  destruct (fadd_ok t p Vt Vm Ft Fm ltac:(lra)) as (Vr & Fr & Er). fold r in Vr, Fr, Er. split; [exact Vr|]. split; [exact Fr|].
  replace (fval r - (fval t + c * fval s)) with ((fval r - (fval t + fval p)) + (fval p - fval c64 * fval s) + (fval c64 * fval s - c * fval s)) by ring.
  eapply Rle_trans; [apply Rabs_triang|]. eapply Rle_trans; [apply Rplus_le_compat_r, Rabs_triang|].
  assert (uro * Rabs (fval t + fval p) <= uro * (Mt + 11 / 10 * w + eta64)) by (apply Rmult_le_compat_l; lra).
  assert (Z3 : uro * eta64 <= / 10 * eta64) by (apply Rmult_le_compat_r; lra).
  lra.
Qed.

Lemma sumR_diff n (p q a : nat -> R) d A : 0 <= d -> (forall l, (l < n)%nat -> Rabs (p l - q l) <= d) -> sumn n (fun l => Rabs (a l)) <= A ->
  Rabs (sumn n (fun l => p l * a l) - sumn n (fun l => q l * a l)) <= A * d.
Proof.
  intros Hd H HA. apply Rle_trans with (sumn n (fun l => Rabs (a l)) * d); [|apply Rmult_le_compat_r; assumption]. clear HA.
  induction n as [|n IH]; [cbn; change (@zero R R_ops) with 0; rewrite Rminus_eq_0, Rabs_R0; lra|]. cbn [sumn]. change (@add R R_ops) with Rplus. change (@mul R R_ops) with Rmult in *.
  specialize (IH (fun l Hl => H l ltac:(lia))). specialize (H n ltac:(lia)).
  match goal with |- Rabs (?u + ?v - (?u' + ?v')) <= _ => replace (u + v - (u' + v')) with ((u - u') + (p n - q n) * a n) by ring end.
  eapply Rle_trans; [apply Rabs_triang|]. rewrite Rmult_plus_distr_r. apply Rplus_le_compat; [exact IH|]. rewrite Rabs_mult, Rmult_comm. apply Rmult_le_compat_l; [apply Rabs_pos|exact H].
Qed.
Lemma sumR_bound n (q a : nat -> R) d A : 0 <= d -> (forall l, (l < n)%nat -> Rabs (q l) <= d) -> sumn n (fun l => Rabs (a l)) <= A ->
  Rabs (sumn n (fun l => q l * a l)) <= A * d.
Proof.
  intros Hd H HA. pose proof (sumR_diff n q (fun _ => 0) a d A Hd) as Q. cbv beta in Q.
  assert (Z : sumn n (fun l => 0 * a l) = 0). { clear. induction n as [|n IH]; [reflexivity|]. cbn [sumn]. change (@add R R_ops) with Rplus. change (@mul R R_ops) with Rmult in *. rewrite IH. ring. }
  change (@mul R R_ops) with Rmult in *. rewrite Z, Rminus_0_r in Q. apply Q; [|exact HA]. intros l Hl. rewrite Rminus_0_r. apply H, Hl.
Qed.

Section RKStep.
Variables (B64 : tableau f64) (B : tableau R) (A : R).
Variables (f : f64 -> vector f64 -> outcome (vector f64)) (fR : R -> vector R -> outcome (vector R)) (m : nat) (F : R -> (nat -> R) -> nat -> R).
Variables (lo hi X K L Lt eps w Mt : R).
Hypothesis HB : rounded_tableau B64 B A.
Hypothesis Htot : rhs_total f m.
Hypothesis Hf : box_evaluates f m F lo hi X eps.
Hypothesis HfR : forall t, computes (fR t) m m (F t).
Hypothesis HF : box_regular m F lo hi X K L Lt.
Hypothesis L0 : 0 <= L. Hypothesis Lt0 : 0 <= Lt. Hypothesis e0 : 0 <= eps. Hypothesis K0 : 0 <= K. Hypothesis w0 : 0 <= w.
Hypothesis Hq : L * w * A <= / 2.
Hypothesis KB : A * (K + eps) <= bpow radix2 990.
Hypothesis XB : X <= bpow radix2 1000.
Hypothesis TB : Mt + w <= bpow radix2 1000.
Hypothesis Mt0 : 0 <= Mt.
Let xi := uro * (X + 39 * w * (A * (K + eps))) + (33 * w + 2) * eta64.
Let theta := uro * (Mt + 4 * w) + 2 * eta64.

Lemma A_pos : 0 <= A.
Proof. destruct HB as (_ & _ & _ & _ & _ & _ & _ & _ & HA). eapply Rle_trans; [|exact HA]. apply sumR_nonneg. intros; apply Rabs_pos. Qed.

Variables (t s : f64) (sg : R) (x : vector f64) (g : nat -> f64) (xR : vector R) (gR : nat -> R) (Xg e ups : R).
Hypothesis Vt : fvalid t. Hypothesis Ft : ffin t = true. Hypothesis Bt : Rabs (fval t) <= Mt.
Hypothesis It : lo + w + theta <= fval t <= hi - w - theta.
Hypothesis Vs : fvalid s. Hypothesis Fs : ffin s = true. Hypothesis Bs : Rabs (fval s) <= w.
Hypothesis Bsg : Rabs sg <= w. Hypothesis Hsg : Rabs (fval s - sg) <= ups.
Hypothesis Hx : fcol x m g. Hypothesis HxR : is_col xR m gR.
Hypothesis Bg : within m (fun l => fval (g l)) Xg. Hypothesis BgR : within m gR Xg.
Hypothesis HX : Xg + w * (A * (K + eps)) + xi <= X. Hypothesis Xg0 : 0 <= Xg.
Hypothesis He : within m (fun l => fval (g l) - gR l) e. Hypothesis He0 : 0 <= e.
Let kap := 2 * (eps + Lt * (theta + ups) + L * (xi + A * K * ups + e)).

Lemma xi_pos : 0 <= xi.
Proof.
  pose proof small_consts as ((U0 & _) & (T0 & _)). pose proof A_pos as A0. assert (0 <= w * (A * (K + eps))) by (repeat apply Rmult_le_pos; lra). assert (X0 : 0 <= X \/ X < 0) by lra. unfold xi in *.
  assert (0 < (33 * w + 2) * eta64) by (apply Rmult_lt_0_compat; lra). destruct X0 as [X0|X0].
  - assert (0 <= uro * (X + 39 * w * (A * (K + eps)))) by (apply Rmult_le_pos; lra). lra.
  - exfalso. set (P := w * (A * (K + eps))) in *. replace (39 * w * (A * (K + eps))) with (39 * P) in HX by (unfold P; ring).
    assert (0 <= uro * P) by (apply Rmult_le_pos; lra). assert (uro * X >= X) by (pose proof small_consts; nra). lra.
Qed.
Lemma theta_pos : 0 <= theta.
Proof. pose proof small_consts as ((U0 & _) & (T0 & _)). unfold theta. assert (0 <= uro * (Mt + 4 * w)) by (apply Rmult_le_pos; lra). lra. Qed.
Lemma ups_pos : 0 <= ups.
Proof. eapply Rle_trans; [apply Rabs_pos|exact Hsg]. Qed.
Lemma kap_pos : 0 <= kap.
Proof.
  pose proof A_pos. pose proof xi_pos. pose proof theta_pos. pose proof ups_pos. unfold kap.
  assert (0 <= Lt * (theta + ups)) by (apply Rmult_le_pos; lra). assert (0 <= A * K * ups) by (repeat apply Rmult_le_pos; lra).
  assert (0 <= L * (xi + A * K * ups + e)) by (apply Rmult_le_pos; lra). lra.
Qed.

(** The combination of the stages. *)
Lemma combine_ok n (K64 : nat -> nat -> f64) (KR : nat -> nat -> R) (a64 : nat -> f64) (a : nat -> R) i : (n <= 16)%nat -> (i < m)%nat ->
  (forall l, (l < n)%nat -> close64 (a64 l) (a l)) -> sumn n (fun l => Rabs (a l)) <= A ->
  (forall l, (l < n)%nat -> fvalid (K64 l i) /\ ffin (K64 l i) = true /\ Rabs (fval (K64 l i)) <= K + eps /\ Rabs (KR l i) <= K /\ Rabs (fval (K64 l i) - KR l i) <= kap) ->
  let r := add (g i) (mul (sumn n (fun l => mul (K64 l i) (a64 l))) s) in
  let rR := gR i + sumn n (fun l => KR l i * a l) * sg in
  fvalid r /\ ffin r = true /\ Rabs (fval r) <= X /\ Rabs rR <= X /\ Rabs (rR - gR i) <= w * (A * K) /\ Rabs (fval r - rR) <= e + xi + A * K * ups + w * A * kap.
Proof.
  intros Hn Hi Ha HA HK r rR. pose proof A_pos as A0. pose proof kap_pos as k0. pose proof small_consts as ((U0 & U1) & (T0 & T1)). pose proof xi_pos as x0.
  assert (AK : 0 <= A * (K + eps)) by (apply Rmult_le_pos; lra). assert (WAK : 0 <= w * (A * (K + eps))) by (apply Rmult_le_pos; lra).
  destruct (fdot_ok n (fun l => K64 l i) a64 a (K + eps) A Hn ltac:(lra) KB (fun l Hl => conj (proj1 (HK l Hl)) (conj (proj1 (proj2 (HK l Hl))) (proj1 (proj2 (proj2 (HK l Hl)))))) Ha HA) as (Vq & Fq & Eq & Bq).
  set (q := sumn n (fun l => mul (K64 l i) (a64 l))) in *. set (S := sumn n (fun l => Rabs (a l))) in *.
  assert (S0 : 0 <= S) by (apply sumR_nonneg; intros; apply Rabs_pos).
  assert (SA : (K + eps) * S <= A * (K + eps)) by (rewrite (Rmult_comm A); apply Rmult_le_compat_l; lra). assert (SA0 : 0 <= (K + eps) * S) by (apply Rmult_le_pos; lra).
  set (sm := sumn n (fun l => fval (K64 l i) * a l)) in *.
  assert (N16 : 0 <= INR n <= 16) by (split; [apply pos_INR|]; replace 16 with (INR 16) by (cbn; lra); apply le_INR; exact Hn).
  assert (Eq' : Rabs (fval q - sm) <= 35 * uro * (A * (K + eps)) + 32 * eta64).
  { eapply Rle_trans; [exact Eq|]. apply Rplus_le_compat; [|apply Rmult_le_compat_r; lra]. apply Rmult_le_compat; [apply Rmult_le_pos; lra|exact SA0|apply Rmult_le_compat_r; lra|exact SA]. }
  destruct (comb_ok (g i) q s sm (A * (K + eps)) w Xg) as (Vr & Fr & Er); try assumption; try apply (proj2 Hx i Hi).
  { apply (Bg i Hi). } { lra. } { lra. } { lra. }
  fold r in Vr, Fr, Er. split; [exact Vr|]. split; [exact Fr|].
  assert (Er' : Rabs (fval r - (fval (g i) + sm * fval s)) <= xi).
  { eapply Rle_trans; [exact Er|]. unfold xi. apply Rplus_le_compat_r, Rmult_le_compat_l; lra. }
  assert (BK : Rabs (sumn n (fun l => KR l i * a l)) <= A * K) by (apply (sumR_bound n (fun l => KR l i) a K A K0); [intros l Hl; apply (HK l Hl)|exact HA]).
  assert (BD : Rabs (sm - sumn n (fun l => KR l i * a l)) <= A * kap) by (apply (sumR_diff n (fun l => fval (K64 l i)) (fun l => KR l i) a kap A k0); [intros l Hl; apply (HK l Hl)|exact HA]).
  assert (Bsm : Rabs sm <= A * (K + eps)) by lra.
  pose proof (Bg i Hi) as Bgi. cbv beta in Bgi. pose proof (BgR i Hi) as BgRi. pose proof (He i Hi) as Hei. cbv beta in Hei.
  split; [|split; [|split]].
  - replace (fval r) with (fval (g i) + sm * fval s + (fval r - (fval (g i) + sm * fval s))) by ring. eapply Rle_trans; [apply Rabs_triang|]. eapply Rle_trans; [apply Rplus_le_compat_r, Rabs_triang|].
    assert (Rabs (sm * fval s) <= w * (A * (K + eps))) by (rewrite Rabs_mult, Rmult_comm; apply Rmult_le_compat; try apply Rabs_pos; assumption). lra.
  - unfold rR. change (@mul R R_ops) with Rmult in *. eapply Rle_trans; [apply Rabs_triang|].
    assert (Rabs (sumn n (fun l => KR l i * a l) * sg) <= w * (A * K)) by (rewrite Rabs_mult, Rmult_comm; apply Rmult_le_compat; try apply Rabs_pos; assumption).
    assert (w * (A * K) <= w * (A * (K + eps))) by (repeat apply Rmult_le_compat_l; lra). lra.
  - unfold rR. change (@mul R R_ops) with Rmult in *. match goal with |- Rabs (?u + ?v - ?u) <= _ => replace (u + v - u) with v by ring end.
    rewrite Rabs_mult, Rmult_comm; apply Rmult_le_compat; try apply Rabs_pos; assumption.
  - unfold rR. change (@mul R R_ops) with Rmult in *. set (sR := sumn n (fun l => KR l i * a l)) in *.
    replace (fval r - (gR i + sR * sg)) with ((fval (g i) - gR i) + (fval r - (fval (g i) + sm * fval s)) + sR * (fval s - sg) + (sm - sR) * fval s) by ring.
    eapply Rle_trans; [apply Rabs_triang|]. apply Rplus_le_compat.
    + eapply Rle_trans; [apply Rabs_triang|]. apply Rplus_le_compat; [|rewrite Rabs_mult; apply Rmult_le_compat; try apply Rabs_pos; assumption].
      eapply Rle_trans; [apply Rabs_triang|]. lra.
    + rewrite Rabs_mult, Rmult_comm. rewrite Rmult_assoc. apply Rmult_le_compat; try apply Rabs_pos; assumption.
Qed.

Lemma rk_step_main : exists x' g' xR' gR', do_step B64 f t x s = Ret x' /\ fcol x' m g' /\ do_step B fR (fval t) xR sg = Ret xR' /\ is_col xR' m gR' /\
  within m (fun l => fval (g' l) - gR' l) (e + xi + A * K * ups + w * A * kap) /\ within m (fun l => gR' l - gR l) (w * (A * K)).
Proof.
  pose proof A_pos as A0. pose proof kap_pos as k0. pose proof xi_pos as x0. pose proof theta_pos as th0. pose proof ups_pos as u0. pose proof small_consts as ((U0 & U1) & (T0 & T1)).
  pose proof HB as (Hlen & Hs & Hok64 & HokR & Ha & Hb & Hc & HAa & HAb). set (n := length (tb B)) in *.
  assert (HtotR : rhs_total fR m). { intros t' x' g' Hg'. destruct (HfR t' x' g' Hg') as (y & E & Hy). eauto. }
  destruct (do_step_spec B64 f m t x g s ltac:(lia) Hok64 (proj1 Hx) Htot) as (r & K64 & E64 & (HK0 & HKj) & Hr).
  destruct (do_step_spec B fR m (fval t) xR gR sg ltac:(fold n; lia) HokR HxR HtotR) as (rR & KR & ER & (HR0 & HRj) & HrR).
  rewrite Hlen in HKj, Hr. fold n in HRj, HrR. change (@add R R_ops) with Rplus in *. change (@mul R R_ops) with Rmult in *.
  destruct HF as (HFb & HFl).
  assert (AKp : 0 <= A * (K + eps)) by (apply Rmult_le_pos; lra). assert (wAK : 0 <= w * (A * (K + eps))) by (apply Rmult_le_pos; lra).
  assert (XgX : Xg <= X) by lra.
  assert (Main : forall j, (j < n)%nat -> forall i, (i < m)%nat ->
    fvalid (K64 j i) /\ ffin (K64 j i) = true /\ Rabs (fval (K64 j i)) <= K + eps /\ Rabs (KR j i) <= K /\ Rabs (fval (K64 j i) - KR j i) <= kap).
  { induction j as [j IH] using (well_founded_induction lt_wf). intros Hj.
    (* the stage argument in both arithmetics *)
    assert (ARG : exists xj kj gj tj, f tj xj = Ret kj /\ is_col kj m (K64 j) /\ fcol xj m gj /\ fvalid tj /\ ffin tj = true /\ lo <= fval tj <= hi /\ within m (fun l => fval (gj l)) X /\
       exists tR hj, (forall i, (i < m)%nat -> KR j i = F tR hj i) /\ lo <= tR <= hi /\ within m hj X /\ Rabs (fval tj - tR) <= theta + ups /\
         within m (fun l => fval (gj l) - hj l) (e + xi + A * K * ups + w * A * kap)).
    { destruct j as [|j'].
      - destruct HK0 as (k0' & E0 & Hk0'). destruct HR0 as (kR0 & ER0 & HkR0). exists x, k0', g, t. split; [exact E0|]. split; [exact Hk0'|]. split; [exact Hx|]. split; [exact Vt|]. split; [exact Ft|].
        split; [lra|]. split; [intros l Hl; eapply Rle_trans; [apply (Bg l Hl)|exact XgX]|]. exists (fval t), gR.
        split. { intros i Hi. destruct (HfR (fval t) xR gR HxR) as (y & Ey & Hy). rewrite ER0 in Ey. injection Ey as <-. exact (OdeGlobal_proofs.col_unique _ _ _ _ i HkR0 Hy Hi). }
        split; [lra|]. split; [intros l Hl; eapply Rle_trans; [apply (BgR l Hl)|exact XgX]|]. split; [rewrite Rminus_eq_0, Rabs_R0; lra|].
        intros l Hl. eapply Rle_trans; [apply (He l Hl)|]. assert (0 <= A * K * ups) by (repeat apply Rmult_le_pos; lra). assert (0 <= w * A * kap) by (apply Rmult_le_pos; [apply Rmult_le_pos; lra|exact k0]). lra.
      - set (j := S j') in *. destruct (HKj j ltac:(lia)) as (xj & kj & Hxj & Efj & Hkj). destruct (HRj j ltac:(lia)) as (xRj & kRj & HxRj & ERj & HkRj).
        assert (CB : forall i, (i < m)%nat -> _) by (intros i Hi; exact (combine_ok j K64 KR (a_of (ta B64) j) (a_of (ta B) j) i ltac:(lia) Hi (fun l Hl => Ha j l (conj Hl Hj)) (HAa j Hj) (fun l Hl => IH l Hl ltac:(lia) i Hi))).
        destruct (Hc j Hj) as (Hcc & Hc01).
        destruct (node_ok t (c_of (tc B64) j) s (c_of (tc B) j) w Mt Vt Vs Ft Fs Hcc Hc01 Bt Bs TB) as (Vj & Fj & Ej). fold theta in Ej.
        assert (CS : Rabs (c_of (tc B) j * fval s) <= w). { rewrite Rabs_mult, (Rabs_pos_eq (c_of _ _)) by lra. rewrite <- (Rmult_1_l w). apply Rmult_le_compat; try apply Rabs_pos; lra. }
        assert (CG : Rabs (c_of (tc B) j * sg) <= w). { rewrite Rabs_mult, (Rabs_pos_eq (c_of _ _)) by lra. rewrite <- (Rmult_1_l w). apply Rmult_le_compat; try apply Rabs_pos; lra. }
        assert (CD : Rabs (c_of (tc B) j * (fval s - sg)) <= ups). { rewrite Rabs_mult, (Rabs_pos_eq (c_of _ _)) by lra. rewrite <- (Rmult_1_l ups). apply Rmult_le_compat; try apply Rabs_pos; lra. }
        exists xj, kj, (fun i => add (g i) (mul (sumn j (fun l => mul (K64 l i) (a_of (ta B64) j l))) s)), (add t (mul (c_of (tc B64) j) s)).
        split; [exact Efj|]. split; [exact Hkj|]. split; [split; [exact Hxj|intros l Hl; destruct (CB l Hl) as (C1 & C2 & _); split; assumption]|].
        split; [exact Vj|]. split; [exact Fj|]. split; [apply Rabs_le_inv in Ej; apply Rabs_le_inv in CS; lra|]. split; [intros l Hl; apply (CB l Hl)|].
        exists (fval t + c_of (tc B) j * sg), (fun i => gR i + sumn j (fun l => KR l i * a_of (ta B) j l) * sg). split.
        { intros i Hi. destruct (HfR (fval t + c_of (tc B) j * sg) xRj _ HxRj) as (y & Ey & Hy). rewrite ERj in Ey. injection Ey as <-. exact (OdeGlobal_proofs.col_unique _ _ _ _ i HkRj Hy Hi). }
        split; [apply Rabs_le_inv in CG; lra|]. split; [intros l Hl; apply (CB l Hl)|]. split; [|intros l Hl; apply (CB l Hl)].
        replace (fval (add t (mul (c_of (tc B64) j) s)) - (fval t + c_of (tc B) j * sg)) with
          ((fval (add t (mul (c_of (tc B64) j) s)) - (fval t + c_of (tc B) j * fval s)) + c_of (tc B) j * (fval s - sg)) by ring.
        eapply Rle_trans; [apply Rabs_triang|]. lra. }
    destruct ARG as (xj & kj & gj & tj & Ej & Hkj & Hgj & Vj & Fj & Ij & Bj & tR & hj & EK & IR & BR & Dt & Dx). intros i Hi.
    destruct (Hf tj xj gj Vj Fj Ij Hgj Bj) as (v & k & Ev & (Hk & Hkv) & Hke). rewrite Ej in Ev. injection Ev as <-.
    assert (EQ : K64 j i = k i) by (apply (fcol_unique kj m); assumption). rewrite EQ. destruct (Hkv i Hi) as (V & Fi). split; [exact V|]. split; [exact Fi|].
    pose proof (Hke i Hi) as Ke. cbv beta in Ke. pose proof (HFb _ _ Ij Bj i Hi) as Kb. cbv beta in Kb.
    split. { replace (fval (k i)) with ((fval (k i) - F (fval tj) (fun l => fval (gj l)) i) + F (fval tj) (fun l => fval (gj l)) i) by ring. eapply Rle_trans; [apply Rabs_triang|]. lra. }
    rewrite (EK i Hi). split; [apply (HFb _ _ IR BR i Hi)|].
    replace (fval (k i) - F tR hj i) with ((fval (k i) - F (fval tj) (fun l => fval (gj l)) i) + (F (fval tj) (fun l => fval (gj l)) i - F tR hj i)) by ring.
    eapply Rle_trans; [apply Rabs_triang|]. pose proof (HFl (fval tj) tR (fun l => fval (gj l)) hj _ Ij IR Bj BR Dx i Hi) as LL. cbv beta in LL.
    assert (Lt * Rabs (fval tj - tR) <= Lt * (theta + ups)) by (apply Rmult_le_compat_l; lra).
    assert (L * w * A * kap <= / 2 * kap) by (apply Rmult_le_compat_r; lra).
    unfold kap in *. lra. }
  exists r, (fun i => add (g i) (mul (sumn n (fun j => mul (K64 j i) (b_of (tb B64) j))) s)), rR, (fun i => gR i + sumn n (fun j => KR j i * b_of (tb B) j) * sg).
  assert (CB : forall i, (i < m)%nat -> _) by (intros i Hi; exact (combine_ok n K64 KR (b_of (tb B64)) (b_of (tb B)) i ltac:(lia) Hi Hb HAb (fun l Hl => Main l Hl i Hi))).
  split; [exact E64|]. split; [split; [exact Hr|intros l Hl; destruct (CB l Hl) as (C1 & C2 & _); split; assumption]|]. split; [exact ER|]. split; [exact HrR|].
  split; intros l Hl; apply (CB l Hl).
Qed.
End RKStep.

(** ** Whole runs *)
Lemma rk_total (B : tableau f64) f m t x s g : rhs_total f m -> (1 <= length (tb B))%nat -> tableau_ok (ta B) (tb B) (tc B) -> is_col x m g ->
  exists x' g', do_step B f t x s = Ret x' /\ is_col x' m g'.
Proof. intros Hf Hs Hok Hg. destruct (do_step_spec B f m t x g s Hs Hok Hg Hf) as (r & Kk & E & _ & Hr). eauto. Qed.

Section RKRun.
Variables (h t0 t1 : f64) (M : R) (n : nat) (B64 : tableau f64) (B : tableau R) (A : R).
Variables (f : f64 -> vector f64 -> outcome (vector f64)) (fR : R -> vector R -> outcome (vector R)) (m : nat) (F : R -> (nat -> R) -> nat -> R).
Variables (lo hi X XR K L Lt eps : R) (init : vector f64) (g0 : nat -> f64) (initR : vector R).
Hypothesis Vh : fvalid h. Hypothesis V0 : fvalid t0. Hypothesis V1 : fvalid t1.
Hypothesis Fh : ffin h = true. Hypothesis F0 : ffin t0 = true. Hypothesis F1 : ffin t1 = true.
Hypothesis Hh : 0 < fval h. Hypothesis Ht : fval t0 <= fval t1.
Hypothesis M0 : Rabs (fval t0) <= M. Hypothesis M1 : Rabs (fval t1) <= M. Hypothesis MB : M <= bpow radix2 1000.
Hypothesis Hn : (fval t1 - fval t0) / fval h + 2 <= INR n. Hypothesis Hn47 : INR n <= IZR (2 ^ 47).
Hypothesis HB : rounded_tableau B64 B A.
Let w := fval h + 4 * (INR n + 1) * uro * M.
Let xi := uro * (X + 39 * w * (A * (K + eps))) + (33 * w + 2) * eta64.
Let theta := uro * (9 / 8 * M + 4 * w) + 2 * eta64.
Let ups := 2 * uro * M.
Let r := xi + A * K * ups + 2 * w * A * (eps + Lt * (theta + ups) + L * (xi + A * K * ups)).
Let q := 2 * L * A * w.
Hypothesis Hlo : lo + 2 * w + theta <= fval t0. Hypothesis Hhi : fval t1 + 2 * w + theta <= hi.
Hypothesis Htot : rhs_total f m. Hypothesis Hf : box_evaluates f m F lo hi X eps.
Hypothesis HfR : forall t, computes (fR t) m m (F t). Hypothesis HF : box_regular m F lo hi X K L Lt.
Hypothesis L0 : 0 <= L. Hypothesis Lt0 : 0 <= Lt. Hypothesis E0 : 0 <= eps. Hypothesis K0 : 0 <= K.
Hypothesis Hq : L * w * A <= / 2. Hypothesis KB : A * (K + eps) <= bpow radix2 990. Hypothesis XB : X <= bpow radix2 1000. Hypothesis TB : 9 / 8 * M + w <= bpow radix2 1000.
Hypothesis Hi : fcol init m g0. Hypothesis HiR : is_col initR m (fun l => fval (g0 l)).
Hypothesis X00 : 0 <= XR. Hypothesis XP : 0 <= X.
Hypothesis HX : XR + w * (A * (K + eps)) + xi + exp (INR n * q) * (INR n * r) <= X.

Lemma rk_signs : 0 <= M /\ 0 <= A /\ 0 <= w /\ 0 <= theta /\ 0 <= ups /\ 0 <= xi /\ 0 <= r /\ 0 <= q.
Proof.
  pose proof small_consts as ((U0 & U1) & (T0 & T1)). assert (MP : 0 <= M) by (pose proof (Rabs_pos (fval t0)); lra). pose proof (pos_INR n) as Pn.
  assert (A0 : 0 <= A) by (eapply A_pos; exact HB).
  assert (W0 : 0 <= w) by (unfold w; assert (0 <= 4 * (INR n + 1) * uro * M) by (repeat apply Rmult_le_pos; lra); lra).
  assert (AK : 0 <= A * (K + eps)) by (apply Rmult_le_pos; lra). assert (wAK : 0 <= w * (A * (K + eps))) by (apply Rmult_le_pos; lra).
  assert (th0 : 0 <= theta) by (unfold theta; assert (0 <= uro * (9 / 8 * M + 4 * w)) by (apply Rmult_le_pos; lra); lra).
  assert (u0 : 0 <= ups) by (unfold ups; repeat apply Rmult_le_pos; lra).
  assert (AKu : 0 <= A * K * ups) by (apply Rmult_le_pos; [apply Rmult_le_pos; lra|exact u0]).
  assert (q0 : 0 <= q) by (unfold q; repeat apply Rmult_le_pos; lra).
  assert (P2 : 0 <= 2 * w * A * (eps + Lt * (theta + ups))).
  { assert (0 <= Lt * (theta + ups)) by (apply Rmult_le_pos; lra). apply Rmult_le_pos; [|lra]. repeat apply Rmult_le_pos; lra. }
  assert (x0 : 0 <= xi).
  { unfold xi. assert (0 <= uro * (X + 39 * w * (A * (K + eps)))) by (apply Rmult_le_pos; lra). assert (0 <= (33 * w + 2) * eta64) by (apply Rmult_le_pos; lra). lra. }
  assert (r0 : 0 <= r).
  { replace r with ((xi + A * K * ups) * (1 + q) + 2 * w * A * (eps + Lt * (theta + ups))) by (unfold r, q; ring). assert (0 <= (xi + A * K * ups) * (1 + q)) by (apply Rmult_le_pos; lra). lra. }
  repeat (split; [assumption|]); assumption.
Qed.

Lemma err_bd i : (i <= n)%nat -> 0 <= (1 + q) ^ i * (INR i * r) <= exp (INR i * q) * (INR i * r) /\ exp (INR i * q) * (INR i * r) <= exp (INR n * q) * (INR n * r).
Proof.
  destruct rk_signs as (_ & _ & _ & _ & _ & _ & r0 & q0). intros Hin. pose proof (pos_INR i) as Pi. pose proof (le_INR _ _ Hin) as Pin. assert (Q : 0 <= INR i * r) by (apply Rmult_le_pos; lra).
  pose proof (one_plus_pow_le_exp q i q0) as P. assert (0 <= (1 + q) ^ i) by (apply pow_le; lra).
  split; [split; [apply Rmult_le_pos; lra|apply Rmult_le_compat_r; lra]|].
  assert (EE : exp (INR i * q) <= exp (INR n * q)).
  { assert (D : INR i * q <= INR n * q) by (apply Rmult_le_compat_r; lra). destruct (Rle_lt_or_eq_dec _ _ D) as [D'|D']; [apply Rlt_le, exp_increasing, D'|rewrite D'; lra]. }
  apply Rmult_le_compat; [apply Rlt_le, exp_pos|exact Q|exact EE|apply Rmult_le_compat_r; lra].
Qed.

Definition rk_inv (tv : list f64) (xv : list (vector f64)) (i : nat) : Prop :=
  fvalid (nth i tv zero) /\ ffin (nth i tv zero) = true /\ exists g xR gR, fcol (nth i xv (mkMatrix 0 0 [])) m g /\
    exact_run B fR (fun k => fval (nth k tv zero)) initR i = Ret xR /\ is_col xR m gR /\
    within m (fun l => fval (g l) - gR l) ((1 + q) ^ i * (INR i * r)).

Lemma rk_driver : exists N tv xv, (N <= n)%nat /\ fixed_solve h (do_step B64 f) t0 t1 init = Ret (tv, xv) /\ length tv = S N /\ length xv = S N /\
  rk_inv tv xv 0 /\
  forall i xR gR, (i < N)%nat -> rk_inv tv xv i -> exact_run B fR (fun k => fval (nth k tv zero)) initR i = Ret xR -> is_col xR m gR -> within m gR XR ->
    rk_inv tv xv (S i) /\ exists xR' gR', exact_run B fR (fun k => fval (nth k tv zero)) initR (S i) = Ret xR' /\ is_col xR' m gR' /\ within m (fun l => gR' l - gR l) (w * (A * K)).
Proof.
  destruct rk_signs as (MP & A0 & W0 & th0 & u0 & x0 & r0 & q0). pose proof small_consts as ((U0 & U1) & (T0 & T1)). pose proof (pos_INR n) as Pn.
  assert (AK : 0 <= A * (K + eps)) by (apply Rmult_le_pos; lra). assert (wAK : 0 <= w * (A * (K + eps))) by (apply Rmult_le_pos; lra).
  assert (HQ : (fval t1 - fval t0) / fval h <= IZR (2 ^ 47)) by lra.
  assert (Hn48 : INR n <= IZR (2 ^ 48)) by (eapply Rle_trans; [exact Hn47|apply IZR_le; lia]).
  pose proof HB as (Hlen & Hs & Hok64 & HokR & _).
  destruct (driver_returns h t0 t1 V0 V1 F0 F1 Ht m (do_step B64 f) (fun t x s g Hg => rk_total B64 f m t x s g Htot ltac:(lia) Hok64 Hg) init g0 (proj1 Hi)) as (tv & xv & E).
  destruct (fixed_solve_f64 h t0 t1 M Vh V0 V1 Fh F0 F1 Hh Ht M0 M1 MB HQ _ init tv xv E) as (N & HN & _ & L1 & L2 & Tz & Xz & HT & HS).
  pose proof (count_n h t0 t1 n Hn Hn48 N HN) as HNn.
  exists N, tv, xv. split; [exact HNn|]. split; [exact E|]. split; [exact L1|]. split; [exact L2|]. split.
  { unfold rk_inv. rewrite Tz, Xz. split; [exact V0|]. split; [exact F0|]. exists g0, initR, (fun l => fval (g0 l)). split; [exact Hi|]. split; [reflexivity|]. split; [exact HiR|].
    intros l Hl. rewrite Rminus_eq_0, Rabs_R0. cbn [INR pow]. lra. }
  intros i xR gR Hi1 (Vt & Ft & g & xR0 & gR0 & Hg & HxR0 & HgR0 & Bge) HxR HgR BgR.
  rewrite HxR in HxR0. injection HxR0 as <-.
  assert (Bge' : within m (fun l => fval (g l) - gR l) ((1 + q) ^ i * (INR i * r))).
  { intros l Hl. rewrite (rcol_unique xR m gR gR0 l HgR HgR0 Hl). apply (Bge l Hl). }
  clear Bge HgR0. rename Bge' into Bge.
  pose proof (time_facts h t0 t1 M Vh V0 V1 Fh F0 F1 Hh Ht M0 M1 MB n Hn48 i ltac:(lia)) as TF.
  assert (HI : INR i <= IZR (2 ^ 48)) by (eapply Rle_trans; [apply le_INR; apply Nat.lt_le_incl, (Nat.lt_le_trans _ N); [exact Hi1|exact HNn]|exact Hn48]).
  pose proof (fgrid_bound h t0 t1 M Vh V0 V1 Fh F0 F1 Hh Ht M0 M1 MB i HI) as Bt9. rewrite <- (HT i) in Bt9 by lia.
  cbv zeta in TF. rewrite <- (HT i) in TF by lia. destruct TF as (_ & _ & Bt & Vs & Fs & Bs & _ & Ba & Bw & Bd).
  assert (Et : nth (S i) tv zero = add (nth i tv zero) (tmin h (sub t1 (nth i tv zero)))). { rewrite (HT (S i)) by lia. rewrite (HT i) by lia. reflexivity. }
  destruct (fgrid_err h t0 t1 M Vh V0 V1 Fh F0 F1 Hh Ht M0 M1 MB (S i)) as (Va & Fa & _). { eapply Rle_trans; [|exact Hn48]. apply le_INR. lia. }
  rewrite <- (HT (S i)) in Va, Fa by lia.
  destruct (err_bd i ltac:(lia)) as ((E0i & E1i) & E2i).
  set (e := (1 + q) ^ i * (INR i * r)) in *.
  set (Xg := XR + e).
  assert (GB : within m (fun l => fval (g l)) Xg).
  { intros l Hl. specialize (BgR l Hl). specialize (Bge l Hl). cbv beta in *. apply Rabs_le_inv in BgR. apply Rabs_le_inv in Bge. unfold Xg. apply Rabs_le. lra. }
  assert (GRB : within m gR Xg) by (intros l Hl; specialize (BgR l Hl); unfold Xg; lra).
  assert (HXg : Xg + w * (A * (K + eps)) + xi <= X) by (unfold Xg; lra).
  set (tt := nth i tv zero) in *. set (s := tmin h (sub t1 tt)) in *.
  assert (UM4 : 4 * INR n * uro * M <= w) by (unfold w; assert (0 <= uro * M) by (apply Rmult_le_pos; lra); replace (4 * (INR n + 1) * uro * M) with (4 * INR n * uro * M + 4 * (uro * M)) by ring; lra).
  destruct (rk_step_main B64 B A f fR m F lo hi X K L Lt eps w (9 / 8 * M) HB Htot Hf HfR HF L0 Lt0 E0 K0 W0 Hq KB XB TB ltac:(lra)
    tt s (fval (add tt s) - fval tt) (nth i xv (mkMatrix 0 0 [])) g xR gR Xg e ups Vt Ft Bt9 ltac:(fold theta; lra) Vs Fs Bs Bw Bd Hg HgR GB GRB HXg ltac:(unfold Xg; lra) Bge E0i)
    as (x' & g' & xR' & gR' & R1 & R2 & R3 & R4 & R5 & R6).
  fold xi theta in R5. pose proof (HS i ltac:(lia)) as HSi. fold tt s in HSi. rewrite R1 in HSi. injection HSi as HSi.
  assert (ES : exact_run B fR (fun k => fval (nth k tv zero)) initR (S i) = Ret xR'). { cbn [exact_run]. rewrite HxR. cbn [bind]. rewrite Et. fold tt s. exact R3. }
  split; [|exists xR', gR'; split; [exact ES|]; split; [exact R4|exact R6]].
  unfold rk_inv. rewrite <- HSi. split; [exact Va|]. split; [exact Fa|]. exists g', xR', gR'. split; [exact R2|]. split; [exact ES|]. split; [exact R4|].
  intros l Hl. eapply Rle_trans; [apply (R5 l Hl)|]. cbn [pow]. rewrite S_INR.
  assert (1 <= (1 + q) * (1 + q) ^ i) by (change (1 <= (1 + q) ^ S i); apply pow_R1_Rle; lra).
  replace ((1 + q) * (1 + q) ^ i * ((INR i + 1) * r)) with ((1 + q) * e + (1 + q) * (1 + q) ^ i * r) by (unfold e; ring).
  assert (r <= (1 + q) * (1 + q) ^ i * r) by (rewrite <- (Rmult_1_l r) at 1; apply Rmult_le_compat_r; lra).
  assert (e + xi + A * K * ups + w * A * (2 * (eps + Lt * (theta + ups) + L * (xi + A * K * ups + e))) = (1 + q) * e + r) by (unfold r, q; ring). lra.
Qed.

(** If the exact run stays within XR, the f64 run follows it. *)
Lemma rk_run_f64 : exists N tv xv, (N <= n)%nat /\ fixed_solve h (do_step B64 f) t0 t1 init = Ret (tv, xv) /\ length tv = S N /\ length xv = S N /\
  ((forall i xR gR, (i < N)%nat -> exact_run B fR (fun k => fval (nth k tv zero)) initR i = Ret xR -> is_col xR m gR -> within m gR XR) ->
   forall i, (i <= N)%nat -> exists g xR gR, fcol (nth i xv (mkMatrix 0 0 [])) m g /\
     exact_run B fR (fun k => fval (nth k tv zero)) initR i = Ret xR /\ is_col xR m gR /\
     within m (fun l => fval (g l) - gR l) (exp (INR i * q) * (INR i * r))).
Proof.
  destruct rk_driver as (N & tv & xv & HN & E & L1 & L2 & I0 & IS). exists N, tv, xv. split; [exact HN|]. split; [exact E|]. split; [exact L1|]. split; [exact L2|].
  intros HR. assert (Main : forall i, (i <= N)%nat -> rk_inv tv xv i).
  { induction i as [|i IH]; intros Hi1; [exact I0|]. specialize (IH ltac:(lia)). pose proof IH as (_ & _ & g & xR & gR & _ & Q2 & Q3 & _).
    apply (IS i xR gR ltac:(lia) IH Q2 Q3 (HR i xR gR ltac:(lia) Q2 Q3)). }
  intros i Hin. destruct (Main i Hin) as (_ & _ & g & xR & gR & Q1 & Q2 & Q3 & Q4). exists g, xR, gR. split; [exact Q1|]. split; [exact Q2|]. split; [exact Q3|].
  intros l Hl. eapply Rle_trans; [apply (Q4 l Hl)|]. apply (err_bd i ltac:(lia)).
Qed.

(** A priori bound on the exact run. *)
Lemma rk_run_apriori X0 : within m (fun l => fval (g0 l)) X0 -> X0 + INR n * (w * (A * K)) <= XR ->
  exists N tv xv, (N <= n)%nat /\ fixed_solve h (do_step B64 f) t0 t1 init = Ret (tv, xv) /\ length tv = S N /\ length xv = S N /\
   forall i, (i <= N)%nat -> exists g xR gR, fcol (nth i xv (mkMatrix 0 0 [])) m g /\
     exact_run B fR (fun k => fval (nth k tv zero)) initR i = Ret xR /\ is_col xR m gR /\
     within m (fun l => fval (g l) - gR l) (exp (INR i * q) * (INR i * r)).
Proof.
  intros HX0 HXR. destruct rk_driver as (N & tv & xv & HN & E & L1 & L2 & I0 & IS). exists N, tv, xv. split; [exact HN|]. split; [exact E|]. split; [exact L1|]. split; [exact L2|].
  destruct rk_signs as (MP & A0 & W0 & th0 & u0 & x0 & r0 & q0). assert (wAK : 0 <= w * (A * K)) by (repeat apply Rmult_le_pos; lra).
  assert (Main : forall i, (i <= N)%nat -> rk_inv tv xv i /\ exists xR gR, exact_run B fR (fun k => fval (nth k tv zero)) initR i = Ret xR /\ is_col xR m gR /\ within m gR (X0 + INR i * (w * (A * K)))).
  { induction i as [|i IH]; intros Hi1.
    - split; [exact I0|]. exists initR, (fun l => fval (g0 l)). split; [reflexivity|]. split; [exact HiR|]. intros l Hl. specialize (HX0 l Hl). cbv beta in *. cbn [INR]. lra.
    - destruct (IH ltac:(lia)) as (I & xR & gR & Q2 & Q3 & Q4).
      assert (BR : within m gR XR).
      { intros l Hl. specialize (Q4 l Hl). assert (INR i * (w * (A * K)) <= INR n * (w * (A * K))) by (apply Rmult_le_compat_r; [lra|apply le_INR; lia]). lra. }
      destruct (IS i xR gR ltac:(lia) I Q2 Q3 BR) as (I' & xR' & gR' & P1 & P2 & P3). split; [exact I'|]. exists xR', gR'. split; [exact P1|]. split; [exact P2|].
      intros l Hl. specialize (P3 l Hl). specialize (Q4 l Hl). cbv beta in *. rewrite S_INR. replace (gR' l) with (gR l + (gR' l - gR l)) by ring. eapply Rle_trans; [apply Rabs_triang|]. lra. }
  intros i Hin. destruct (Main i Hin) as ((_ & _ & g & xR & gR & Q1 & Q2 & Q3 & Q4) & _). exists g, xR, gR. split; [exact Q1|]. split; [exact Q2|]. split; [exact Q3|].
  intros l Hl. eapply Rle_trans; [apply (Q4 l Hl)|]. apply (err_bd i ltac:(lia)).
Qed.
End RKRun.
