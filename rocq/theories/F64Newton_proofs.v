(** Newton's method in binary64 for one equation. *)
From Coq Require Import ZArith Arith Reals Lra Lia List Bool SpecFloat Psatz.
From Flocq Require Import Core.
From Verif Require Import Outcome Scalar RealOps Matrix_model Vector_model LU_model Decomp_model Ode_model Optim_model
  F64_spec F64Cplx_spec F64Newton_spec F64Flocq F64Err_proofs F64Grid_proofs F64Chol_proofs.
Import ListNotations.
Local Open Scope R_scope.

Lemma solve_1_gen {T} {O : Ops T} (v j : T) : eqb j zero = false ->
  solve_vec (mkMatrix 1 1 [j]) (mkMatrix 1 1 [v]) = Ret (Ok (mkMatrix 1 1 [div (div (add zero (mul one v)) one) j])).
Proof. intros H. cbv -[add sub mul div one zero neg ltb leb eqb]. rewrite H. reflexivity. Qed.

Section Newton.
Variable pw : f64 -> f64 -> f64.
Let PO : POps f64 := F64_pops pw.
Local Existing Instance PO.

Definition corr (v j : f64) : f64 := div (div (add zero (mul one v)) one) j.
Definition len1 (a : f64) : f64 := pw (add zero (pw a (@two f64 (F64_pops pw)))) (div one (@two f64 (F64_pops pw))).

Lemma solve_1 (v j : f64) : eqb j zero = false -> solve_vec (mkMatrix 1 1 [j]) (mkMatrix 1 1 [v]) = Ret (Ok (mkMatrix 1 1 [corr v j])).
Proof. exact (solve_1_gen v j). Qed.
Lemma find_root_step k tol func jac a v j : func (mkMatrix 1 1 [a]) = Ret (mkMatrix 1 1 [v]) -> jac (mkMatrix 1 1 [a]) = Ret (mkMatrix 1 1 [j]) ->
  eqb j zero = false -> let x1 := sub a (corr v j) in
  @find_root f64 F64_ops PO (S k) tol func jac (mkMatrix 1 1 [a]) =
  if ltb (len1 (sub a x1)) tol then Ret (Ok (mkMatrix 1 1 [a])) else @find_root f64 F64_ops PO k tol func jac (mkMatrix 1 1 [x1]).
Proof.
  intros E1 E2 Hj x1. cbn [find_root]. rewrite E1. cbn [bind]. rewrite E2. cbn [bind]. rewrite (solve_1 v j Hj). cbn [bind runwrap].
  change (vsub (mkMatrix 1 1 [a]) (mkMatrix 1 1 [corr v j])) with (Ret (mkMatrix 1 1 [x1])). cbn [bind].
  change (vsub (mkMatrix 1 1 [a]) (mkMatrix 1 1 [x1])) with (Ret (mkMatrix 1 1 [sub a x1])). cbn [bind].
  change (vp_norm (mkMatrix 1 1 [sub a x1]) two) with (Ret (len1 (sub a x1))). reflexivity.
Qed.
End Newton.

Lemma fnz j : fgood j -> fval j <> 0 -> eqb j zero = false.
Proof.
  intros (V & F) H. destruct j as [s| | |s m e]; try discriminate.
  - exfalso. apply H. reflexivity.
  - destruct s; reflexivity.
Qed.

Lemma Rdiv_1 x : x / 1 = x. Proof. field. Qed.
(** (0 + 1 * v) / 1 / j is v / j rounded *)
Lemma corr_err v j : fgood v -> fgood j -> fval j <> 0 -> Rabs (fval v / fval j) <= bpow radix2 1023 ->
  fgood (corr v j) /\ Rabs (fval (corr v j) - fval v / fval j) <= uro * Rabs (fval v / fval j) + eta64.
Proof.
  intros (Vv & Fv) (Vj & Fj) Nj HB. unfold corr.
  assert (O1 : fvalid one) by reflexivity. assert (Z1 : fvalid zero) by reflexivity.
  assert (NV : no_overflow (fval v)). { unfold no_overflow. rewrite rnd_fval by exact Vv. rewrite <- (B2SF_toB v Vv), fval_B. apply BinarySingleNaN.abs_B2R_lt_emax. }
  destruct (fmul_round one v O1 Vv eq_refl Fv) as (M1 & M2). { rewrite fval_one, Rmult_1_l. exact NV. }
  rewrite fval_one, Rmult_1_l, rnd_fval in M1 by exact Vv. pose proof (fvalid_mul one v O1 Vv) as V1.
  destruct (fadd_round zero (mul one v) Z1 V1 eq_refl M2) as (A1 & A2). { rewrite M1. change (fval zero) with 0. rewrite Rplus_0_l. exact NV. }
  rewrite M1 in A1. change (fval zero) with 0 in A1. rewrite Rplus_0_l, rnd_fval in A1 by exact Vv. pose proof (fvalid_add zero _ Z1 V1) as V2.
  set (z := add zero (mul one v)) in *.
  destruct (fdiv_round z one V2 O1 A2 eq_refl) as (D1 & D2). { rewrite fval_one. lra. } { rewrite A1, fval_one, Rdiv_1. exact NV. }
  rewrite A1, fval_one, Rdiv_1, rnd_fval in D1 by exact Vv. pose proof (fvalid_div z one V2 O1) as V3. set (y := div z one) in *.
  destruct (fdiv_round y j V3 Vj D2 Fj Nj) as (E1 & E2). { rewrite D1. now apply no_ov. }
  rewrite D1 in E1. split; [split; [now apply fvalid_div|exact E2]|]. rewrite E1. apply rnd_err1.
Qed.

Section Step.
Variables (F J : R -> R) (r rho m K ef ej : R).
Hypothesis HR : regular_root F J r rho m K.
Hypothesis H3 : ej < m.
Hypothesis HB : Rabs r + 4 * rho <= bpow radix2 1000.

(** one step in f64 *)
Lemma newton_step a v j : fgood a -> Rabs (fval a - r) <= rho -> fgood v -> fgood j ->
  Rabs (fval v - F (fval a)) <= ef -> Rabs (fval j - J (fval a)) <= ej ->
  let e := Rabs (fval a - r) in let E := (K * e ^ 2 + ej * e + ef) / (m - ej) in E <= rho ->
  let x1 := sub a (corr v j) in
  fval j <> 0 /\ fgood x1 /\ Rabs (fval x1 - r) <= (1 + uro) ^ 2 * E + 2 * uro * e + 2 * eta64 + uro * Rabs r.
Proof.
  intros Ga Hr Gv Gj Ev Ej e E HE x1. destruct (HR _ Hr) as (Jm & Tay). set (xa := fval a) in *.
  assert (E0 : 0 <= e) by apply Rabs_pos. assert (R0 : 0 <= rho) by (eapply Rle_trans; [exact E0|exact Hr]). change (Rabs (xa - r)) with e in Hr.
  assert (JM : m - ej <= Rabs (fval j)). { pose proof (Rabs_triang_inv (J xa) (fval j)) as T. rewrite Rabs_minus_sym in T. lra. }
  assert (Nj : fval j <> 0). { intro Z. rewrite Z, Rabs_R0 in JM. lra. }
  pose proof uro_pos as U. pose proof uro_val as UV. assert (U1 : uro <= / 1024) by (rewrite UV; lra). pose proof eta64_pos as T0.
  set (d := fval v / fval j).
  assert (NE : Rabs (xa - d - r) <= E).
  { replace (xa - d - r) with ((fval j * (xa - r) - fval v) / fval j) by (unfold d; field; exact Nj).
    unfold Rdiv. rewrite Rabs_mult, Rabs_inv. unfold E, Rdiv.
    assert (Nn : Rabs (fval j * (xa - r) - fval v) <= K * e ^ 2 + ej * e + ef).
    { replace (fval j * (xa - r) - fval v) with ((fval j - J xa) * (xa - r) + - (F xa - J xa * (xa - r)) + - (fval v - F xa)) by ring.
      eapply Rle_trans; [apply Rabs_triang|]. eapply Rle_trans; [apply Rplus_le_compat_r, Rabs_triang|]. rewrite !Rabs_Ropp, Rabs_mult. fold e.
      assert (Rabs (fval j - J xa) * e <= ej * e) by (apply Rmult_le_compat_r; assumption).
      assert (K * (xa - r) ^ 2 = K * e ^ 2) as EK. { unfold e. rewrite <- Rsqr_pow2, Rsqr_abs, Rsqr_pow2. reflexivity. } lra. }
    apply Rmult_le_compat; [apply Rabs_pos|left; apply Rinv_0_lt_compat; lra|exact Nn|]. apply Rinv_le_contravar; lra. }
  assert (E00 : 0 <= E) by (eapply Rle_trans; [apply Rabs_pos|exact NE]).
  assert (AD : Rabs d <= e + E). { replace d with ((xa - r) + - (xa - d - r)) by ring. eapply Rle_trans; [apply Rabs_triang|]. rewrite Rabs_Ropp. unfold e. lra. }
  assert (BB : bpow radix2 1000 <= bpow radix2 1023) by (apply bpow_le; lia). pose proof (Rabs_pos r) as AR.
  destruct (corr_err v j Gv Gj Nj) as ((Vd & Fd) & Ed). { fold d. lra. }
  fold d in Ed. split; [exact Nj|]. destruct Ga as (Va & Fa). set (c := corr v j) in *.
  assert (T1 : eta64 <= bpow radix2 (-1075)) by (unfold eta64; lra).
  assert (UD : uro * Rabs d <= uro * (e + E)) by (apply Rmult_le_compat_l; lra).
  assert (G1 : Rabs (xa - fval c - r) <= (1 + uro) * E + uro * e + eta64).
  { replace (xa - fval c - r) with ((xa - d - r) + - (fval c - d)) by ring. eapply Rle_trans; [apply Rabs_triang|]. rewrite Rabs_Ropp. lra. }
  set (G := (1 + uro) * E + uro * e + eta64) in *.
  assert (UE : uro * E <= / 1024 * E) by (apply Rmult_le_compat_r; lra). assert (Ue : uro * e <= / 1024 * e) by (apply Rmult_le_compat_r; lra).
  assert (TB : eta64 <= 1) by (unfold eta64; change 1 with (bpow radix2 0); apply bpow_le; lia).
  assert (B3 : 1 <= bpow radix2 1000) by (change 1 with (bpow radix2 0); apply bpow_le; lia).
  assert (B4 : 4 * bpow radix2 1000 <= bpow radix2 1023). { change 4 with (bpow radix2 2). rewrite <- bpow_plus. apply bpow_le. lia. }
  assert (AX : Rabs (xa - fval c) <= Rabs r + G). { replace (xa - fval c) with (r + (xa - fval c - r)) by ring. eapply Rle_trans; [apply Rabs_triang|]. lra. }
  assert (GB : G <= (1 + / 1024) * rho + / 1024 * rho + 1) by (unfold G; lra).
  destruct (fsub_round a c Va Vd Fa Fd) as (S1 & S2). { apply no_ov. fold xa. lra. }
  fold xa in S1. fold x1 in S1, S2. split; [split; [now apply fvalid_sub|exact S2]|].
  destruct (fsub_err a c Va Vd S2) as (_ & _ & S3 & _). fold xa x1 in S3.
  replace (fval x1 - r) with ((fval x1 - (xa - fval c)) + (xa - fval c - r)) by ring. eapply Rle_trans; [apply Rabs_triang|].
  assert (UX : uro * Rabs (xa - fval c) <= uro * (Rabs r + G)) by (apply Rmult_le_compat_l; lra).
  assert (Fin : (1 + uro) * G <= (1 + uro) ^ 2 * E + 2 * uro * e + 2 * eta64).
  { replace ((1 + uro) * G) with ((1 + uro) ^ 2 * E + (1 + uro) * (uro * e) + (1 + uro) * eta64) by (unfold G; ring).
    assert ((1 + uro) * (uro * e) <= 2 * (uro * e)) by (apply Rmult_le_compat_r; [apply Rmult_le_pos; lra|lra]).
    assert ((1 + uro) * eta64 <= 2 * eta64) by (apply Rmult_le_compat_r; lra). lra. }
  lra.
Qed.
End Step.

Lemma newton_bound_mono a b c : 0 <= a -> 0 <= b -> 0 <= c -> forall k e e', 0 <= e <= e' -> 0 <= newton_bound a b c e k <= newton_bound a b c e' k.
Proof.
  intros Ha Hb Hc. induction k as [|k IH]; intros e e' He; cbn [newton_bound]; [exact He|]. specialize (IH e e' He).
  set (p := newton_bound a b c e k) in *. set (p' := newton_bound a b c e' k) in *. assert (0 <= p ^ 2 <= p' ^ 2) by (split; [apply pow2_ge_0|apply pow_incr; lra]).
  assert (0 <= a * p ^ 2 <= a * p' ^ 2) by (split; [apply Rmult_le_pos; lra|apply Rmult_le_compat_l; lra]).
  assert (0 <= b * p <= b * p') by (split; [apply Rmult_le_pos; lra|apply Rmult_le_compat_l; lra]). lra.
Qed.
Lemma newton_bound_S a b c e k : newton_bound a b c e (S k) = newton_bound a b c (a * e ^ 2 + b * e + c) k.
Proof. induction k as [|k IH]; [reflexivity|]. cbn [newton_bound] in IH |- *. rewrite IH. reflexivity. Qed.

Lemma newton_f64 pw func jac F J r rho m K ef ej al be c th tol :
  regular_root F J r rho m K -> evaluates_near func F r rho ef -> evaluates_near jac J r rho ej ->
  0 <= K -> 0 <= ef -> 0 <= ej -> ej < m -> Rabs r + 4 * rho <= bpow radix2 1000 ->
  length_usable pw (4 * rho) th -> fgood tol ->
  (1 + uro) ^ 2 * K / (m - ej) <= al -> (1 + uro) ^ 2 * ej / (m - ej) + 2 * uro <= be -> (1 + uro) ^ 2 * ef / (m - ej) + 2 * eta64 + uro * Rabs r <= c ->
  al * rho + be <= 1 / 2 -> 2 * c <= rho ->
  forall iters a0, fgood a0 -> Rabs (fval a0 - r) <= rho ->
  exists res, @find_root f64 F64_ops (F64_pops pw) iters tol func jac (mkMatrix 1 1 [a0]) = Ret res /\
    (forall x, res = Ok x -> exists a, x = mkMatrix 1 1 [a] /\ fgood a /\ Rabs (fval a - r) <= 6 * (fval tol + th) + 2 * c) /\
    (forall N, (N < iters)%nat -> 4 * newton_bound al be c (Rabs (fval a0 - r)) N + 3 * c + th < fval tol -> exists x, res = Ok x).
Proof.
  intros HR Hf Hj K0 F0 J0 Jm HB HL (Vt & Ft) Hal Hbe Hc Hq Hrho.
  pose proof uro_pos as U. pose proof uro_val as UV. assert (U1 : uro <= / 1024) by (rewrite UV; lra). pose proof eta64_pos as T0. pose proof (Rabs_pos r) as AR.
  assert (Al0 : 0 <= al). { eapply Rle_trans; [|exact Hal]. apply Rmult_le_pos; [apply Rmult_le_pos; [apply pow2_ge_0|exact K0]|left; apply Rinv_0_lt_compat; lra]. }
  assert (Be0 : 0 <= be). { eapply Rle_trans; [|exact Hbe]. apply Rplus_le_le_0_compat; [|lra]. apply Rmult_le_pos; [apply Rmult_le_pos; [apply pow2_ge_0|exact J0]|left; apply Rinv_0_lt_compat; lra]. }
  assert (C0 : 0 <= c). { eapply Rle_trans; [|exact Hc]. apply Rplus_le_le_0_compat; [apply Rplus_le_le_0_compat; [|lra]|apply Rmult_le_pos; lra]. apply Rmult_le_pos; [apply Rmult_le_pos; [apply pow2_ge_0|exact F0]|left; apply Rinv_0_lt_compat; lra]. }
  assert (Step : forall a, fgood a -> Rabs (fval a - r) <= rho -> exists v j, func (mkMatrix 1 1 [a]) = Ret (mkMatrix 1 1 [v]) /\ jac (mkMatrix 1 1 [a]) = Ret (mkMatrix 1 1 [j]) /\
    eqb j zero = false /\ fgood (sub a (corr v j)) /\ Rabs (fval (sub a (corr v j)) - r) <= al * Rabs (fval a - r) ^ 2 + be * Rabs (fval a - r) + c).
  { intros a Ga Hr. destruct (Hf a Ga Hr) as (v & Ev & Gv & Bv). destruct (Hj a Ga Hr) as (j & Ej & Gj & Bj). exists v, j. split; [exact Ev|]. split; [exact Ej|].
    set (e := Rabs (fval a - r)) in *. assert (E0 : 0 <= e) by apply Rabs_pos. set (E := (K * e ^ 2 + ej * e + ef) / (m - ej)).
    assert (EB : (1 + uro) ^ 2 * E + 2 * uro * e + 2 * eta64 + uro * Rabs r <= al * e ^ 2 + be * e + c).
    { replace ((1 + uro) ^ 2 * E) with ((1 + uro) ^ 2 * K / (m - ej) * e ^ 2 + (1 + uro) ^ 2 * ej / (m - ej) * e + (1 + uro) ^ 2 * ef / (m - ej)) by (unfold E; field; lra).
      assert ((1 + uro) ^ 2 * K / (m - ej) * e ^ 2 <= al * e ^ 2) by (apply Rmult_le_compat_r; [apply pow2_ge_0|exact Hal]).
      assert (((1 + uro) ^ 2 * ej / (m - ej) + 2 * uro) * e <= be * e) by (apply Rmult_le_compat_r; assumption). lra. }
    assert (RB : al * e ^ 2 + be * e + c <= rho).
    { assert (al * e ^ 2 <= al * rho * e). { replace (al * e ^ 2) with (al * e * e) by ring. apply Rmult_le_compat_r; [exact E0|]. apply Rmult_le_compat_l; assumption. }
      assert ((al * rho + be) * e <= 1 / 2 * e) by (apply Rmult_le_compat_r; assumption). lra. }
    assert (E00 : 0 <= E). { unfold E. apply Rmult_le_pos; [|left; apply Rinv_0_lt_compat; lra]. apply Rplus_le_le_0_compat; [apply Rplus_le_le_0_compat|exact F0]; (apply Rmult_le_pos; [assumption|]); [apply pow2_ge_0|exact E0]. }
    assert (HE : E <= rho). { assert (E <= (1 + uro) ^ 2 * E). { rewrite <- (Rmult_1_l E) at 1. apply Rmult_le_compat_r; [exact E00|]. nra. }
      assert (0 <= uro * e) by (apply Rmult_le_pos; lra). assert (0 <= uro * Rabs r) by (apply Rmult_le_pos; lra). lra. }
    destruct (newton_step F J r rho m K ef ej HR Jm HB a v j Ga Hr Gv Gj Bv Bj HE) as (N1 & N2 & N3). fold e E in N3.
    split; [now apply fnz|]. split; [exact N2|]. lra. }
  induction iters as [|iters IH]; intros a Ga Hr.
  { exists Err. split; [reflexivity|]. split; [discriminate|]. intros N HN. lia. }
  destruct (Step a Ga Hr) as (v & j & Ev & Ej & Nj & G1 & B1). rewrite (find_root_step pw iters tol func jac a v j Ev Ej Nj).
  set (x1 := sub a (corr v j)) in *. set (e := Rabs (fval a - r)) in *. set (e1 := Rabs (fval x1 - r)) in *. assert (E0 : 0 <= e) by apply Rabs_pos. assert (E10 : 0 <= e1) by apply Rabs_pos.
  assert (HB2 : al * e ^ 2 + be * e <= 1 / 2 * e).
  { assert (al * e ^ 2 <= al * rho * e). { replace (al * e ^ 2) with (al * e * e) by ring. apply Rmult_le_compat_r; [exact E0|]. apply Rmult_le_compat_l; assumption. }
    assert ((al * rho + be) * e <= 1 / 2 * e) by (apply Rmult_le_compat_r; assumption). lra. }
  assert (Hr1 : e1 <= rho) by lra.
  assert (AX : Rabs (fval a - fval x1) <= e + e1). { replace (fval a - fval x1) with ((fval a - r) + - (fval x1 - r)) by ring. eapply Rle_trans; [apply Rabs_triang|]. rewrite Rabs_Ropp. apply Rle_refl. }
  assert (AE : e <= Rabs (fval a - fval x1) + e1). { unfold e. replace (fval a - r) with ((fval a - fval x1) + (fval x1 - r)) by ring. apply Rabs_triang. }
  assert (BB : bpow radix2 1000 <= bpow radix2 1023) by (apply bpow_le; lia).
  destruct Ga as (Va & Fa). destruct G1 as (V1 & F1).
  destruct (fsub_round a x1 Va V1 Fa F1) as (S1 & S2). { apply no_ov. lra. }
  destruct (fsub_err a x1 Va V1 S2) as (_ & _ & S3 & S4). set (df := sub a x1) in *. set (x := Rabs (fval a - fval x1)) in *. assert (X0 : 0 <= x) by apply Rabs_pos.
  assert (D1 : Rabs (fval df) <= (1 + uro) * x). { replace (fval df) with ((fval df - (fval a - fval x1)) + (fval a - fval x1)) by ring. eapply Rle_trans; [apply Rabs_triang|]. fold x. lra. }
  assert (D2 : x <= (1 + uro) * Rabs (fval df)). { unfold x. replace (fval a - fval x1) with (- (fval df - (fval a - fval x1)) + fval df) by ring. eapply Rle_trans; [apply Rabs_triang|]. rewrite Rabs_Ropp. lra. }
  assert (Ux : uro * x <= / 1024 * x) by (apply Rmult_le_compat_r; lra).
  destruct (HL df) as ((Vs & Fs) & L1 & L2). { split; [now apply fvalid_sub|exact S2]. } { lra. }
  fold (len1 pw df) in Vs, Fs, L1, L2. rewrite (fltb_val _ _ Vs Vt Fs Ft). destruct (Rlt_bool_spec (fval (len1 pw df)) (fval tol)) as [Hlt|Hge].
  - exists (Ok (mkMatrix 1 1 [a])). split; [reflexivity|]. split; [|intros; eexists; reflexivity]. intros y Ey. injection Ey as <-. exists a. split; [reflexivity|]. split; [split; assumption|]. fold e.
    pose proof (Rabs_pos (fval df)). assert (uro * Rabs (fval df) <= / 1024 * Rabs (fval df)) by (apply Rmult_le_compat_r; lra). lra.
  - destruct (IH x1 (conj V1 F1) Hr1) as (res & ER & HA & HN). exists res. split; [exact ER|]. split; [exact HA|]. intros [|N] HNi Hb.
    + exfalso. cbn [newton_bound] in Hb. lra.
    + apply (HN N ltac:(lia)). rewrite newton_bound_S in Hb. fold e1.
      pose proof (newton_bound_mono al be c Al0 Be0 C0 N e1 (al * e ^ 2 + be * e + c) (conj E10 B1)). lra.
Qed.

Lemma newton_bound_linear a b c e rho : 0 <= a -> 0 <= b -> 0 <= c -> 0 <= e <= rho -> a * rho + b <= 1 / 2 -> 2 * c <= rho ->
  forall k, 0 <= newton_bound a b c e k <= (1 / 2) ^ k * e + 2 * c.
Proof.
  intros Ha Hb Hc He Hq Hr k.
  assert (H : 0 <= newton_bound a b c e k <= rho /\ newton_bound a b c e k <= (1 / 2) ^ k * e + 2 * c); [|lra].
  induction k as [|k ((I0 & I1) & I2)]; cbn [newton_bound pow]; [lra|]. set (p := newton_bound a b c e k) in *.
  assert (P : 0 <= a * (p * (p * 1)) + b * p <= 1 / 2 * p).
  { assert (0 <= a * p * p) by (apply Rmult_le_pos; [apply Rmult_le_pos|]; assumption). assert (0 <= b * p) by (apply Rmult_le_pos; assumption).
    assert (a * p * p <= a * rho * p) by (apply Rmult_le_compat_r; [assumption|apply Rmult_le_compat_l; assumption]).
    assert ((a * rho + b) * p <= 1 / 2 * p) by (apply Rmult_le_compat_r; assumption). lra. }
  lra.
Qed.
