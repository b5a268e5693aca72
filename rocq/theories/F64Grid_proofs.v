(** The time grid of the fixed-step solvers in binary64. *)
From Coq Require Import Arith Lia List Bool ZArith Reals Lra Psatz SpecFloat.
From Flocq Require Import Core IEEE754.BinarySingleNaN.
From Verif Require Import Outcome Scalar Matrix_model Vector_model Int_model Int_proofs Ode_model Ode_spec F64_spec F64Flocq F64Err_proofs.
Import ListNotations.
Local Open Scope R_scope.

Lemma no_ov v : Rabs v <= bpow radix2 1023 -> no_overflow v.
Proof.
  intros H. unfold no_overflow. apply Rle_lt_trans with (bpow radix2 1023); [|apply bpow_lt; lia].
  apply abs_round_le_generic; [apply FLT_exp_valid; reflexivity|apply valid_rnd_N|apply generic_format_bpow; cbn; lia|exact H].
Qed.
Lemma fleb_val x y : fvalid x -> fvalid y -> ffin x = true -> ffin y = true -> leb x y = Rle_bool (fval x) (fval y).
Proof.
  intros Hx Hy Fx Fy. change (leb x y) with (SFleb x y). rewrite <- (B2SF_toB x Hx), <- (B2SF_toB y Hy) in *. rewrite ffin_B, !fval_B in *.
  exact (Bleb_correct 53 1024 _ _ Fx Fy).
Qed.
Lemma fltb_val x y : fvalid x -> fvalid y -> ffin x = true -> ffin y = true -> ltb x y = Rlt_bool (fval x) (fval y).
Proof.
  intros Hx Hy Fx Fy. change (ltb x y) with (SFltb x y). rewrite <- (B2SF_toB x Hx), <- (B2SF_toB y Hy) in *. rewrite ffin_B, !fval_B in *.
  exact (Bltb_correct 53 1024 _ _ Fx Fy).
Qed.
Lemma fadd_ok x y : fvalid x -> fvalid y -> ffin x = true -> ffin y = true -> Rabs (fval x + fval y) <= bpow radix2 1023 ->
  fvalid (add x y) /\ ffin (add x y) = true /\ Rabs (fval (add x y) - (fval x + fval y)) <= uro * Rabs (fval x + fval y).
Proof.
  intros Hx Hy Fx Fy Hb. destruct (fadd_round x y Hx Hy Fx Fy (no_ov _ Hb)) as [_ F]. split; [now apply fvalid_add|]. split; [exact F|].
  apply (fadd_err x y Hx Hy F).
Qed.
Lemma fsub_ok x y : fvalid x -> fvalid y -> ffin x = true -> ffin y = true -> Rabs (fval x - fval y) <= bpow radix2 1023 ->
  fvalid (sub x y) /\ ffin (sub x y) = true /\ Rabs (fval (sub x y) - (fval x - fval y)) <= uro * Rabs (fval x - fval y).
Proof.
  intros Hx Hy Fx Fy Hb. destruct (fsub_round x y Hx Hy Fx Fy (no_ov _ Hb)) as [_ F]. split; [now apply fvalid_sub|]. split; [exact F|].
  apply (fsub_err x y Hx Hy F).
Qed.
Lemma fdiv_ok x y : fvalid x -> fvalid y -> ffin x = true -> ffin y = true -> fval y <> 0 -> Rabs (fval x / fval y) <= bpow radix2 1023 ->
  fvalid (div x y) /\ ffin (div x y) = true /\ Rabs (fval (div x y) - fval x / fval y) <= uro * Rabs (fval x / fval y) + eta64.
Proof.
  intros Hx Hy Fx Fy Hn Hb. destruct (fdiv_round x y Hx Hy Fx Fy Hn (no_ov _ Hb)) as [_ F]. split; [now apply fvalid_div|]. split; [exact F|].
  apply (fdiv_err x y Hx Hy Fy F).
Qed.
Lemma tmin_val x y : fvalid x -> fvalid y -> ffin x = true -> ffin y = true ->
  fvalid (tmin x y) /\ ffin (tmin x y) = true /\ fval (tmin x y) = Rmin (fval x) (fval y).
Proof.
  intros Hx Hy Fx Fy. unfold tmin. rewrite fleb_val by assumption. destruct (Rle_bool_spec (fval x) (fval y)) as [H|H].
  - split; [exact Hx|]. split; [exact Fx|]. now rewrite Rmin_left.
  - split; [exact Hy|]. split; [exact Fy|]. rewrite Rmin_right; lra.
Qed.
Lemma Rmin_lip a b c : Rabs (Rmin a b - Rmin a c) <= Rabs (b - c).
Proof. unfold Rmin. destruct (Rle_dec a b), (Rle_dec a c); split_Rabs; lra. Qed.
Lemma Rmin_lip_l a b c : Rabs (Rmin b a - Rmin c a) <= Rabs (b - c).
Proof. rewrite (Rmin_comm b), (Rmin_comm c). apply Rmin_lip. Qed.

(** Ceiling and conversion to an index. *)
Lemma fceil_val x : fvalid x -> ffin x = true -> 0 <= fval x <= IZR (2 ^ 52) ->
  fvalid (F64_ceil x) /\ ffin (F64_ceil x) = true /\ fval (F64_ceil x) = IZR (Zceil (fval x)).
Proof.
  intros Hx Fx Hr. destruct x as [s|s| |s m e]; try discriminate.
  - split; [exact Hx|]. split; [reflexivity|]. change (fval (F64_ceil (S754_zero s))) with 0. change (fval (S754_zero s)) with 0. now rewrite Zceil_IZR.
  - cbn [F64_ceil]. assert (Hp : 0 < IZR (Zpos m) * bpow radix2 e) by (apply Rmult_lt_0_compat; [apply IZR_lt; lia|apply bpow_gt_0]).
    assert (Ev : fval (S754_finite s m e) = IZR (cond_Zopp s (Zpos m)) * bpow radix2 e) by reflexivity.
    destruct s; [exfalso; rewrite Ev in Hr; cbn [cond_Zopp] in Hr; change (Z.neg m) with (- Z.pos m)%Z in Hr; rewrite opp_IZR in Hr; lra|].
    cbn [cond_Zopp] in Ev. destruct (Z.leb_spec 0 e) as [He|He].
    + split; [exact Hx|]. split; [reflexivity|]. rewrite Ev, <- IZR_Zpower by exact He. rewrite <- mult_IZR, Zceil_IZR. reflexivity.
    + set (k := (- e)%Z) in *. assert (Hk : (0 < k)%Z) by (unfold k; lia). assert (P2 : (0 < 2 ^ k)%Z) by (apply Z.pow_pos_nonneg; lia).
      pose proof (Z.div_mod (Zpos m) (2 ^ k) ltac:(lia)) as Hd. pose proof (Z.mod_pos_bound (Zpos m) (2 ^ k) P2) as Hm.
      set (q := (Zpos m / 2 ^ k)%Z) in *. set (r := (Zpos m mod 2 ^ k)%Z) in *.
      assert (Hv : fval (S754_finite false m e) = IZR q + IZR r / IZR (2 ^ k)).
      { rewrite Ev. replace e with (- k)%Z by (unfold k; lia). rewrite bpow_opp, <- (IZR_Zpower radix2) by lia. change (radix_val radix2) with 2%Z. rewrite Hd, plus_IZR, mult_IZR. field. apply IZR_neq. lia. }
      assert (P2' : 0 < IZR (2 ^ k)) by (apply IZR_lt; exact P2).
      assert (Hr0 : 0 <= IZR r / IZR (2 ^ k)) by (apply Rmult_le_pos; [apply IZR_le; lia|left; apply Rinv_0_lt_compat; exact P2']).
      assert (Hr1 : IZR r / IZR (2 ^ k) < 1) by (apply (Rmult_lt_reg_r (IZR (2 ^ k))); [exact P2'|]; unfold Rdiv; rewrite Rmult_assoc, Rinv_l, Rmult_1_r, Rmult_1_l by lra; apply IZR_lt; lia).
      assert (Hq : (0 <= q <= 2 ^ 52)%Z). { split; [apply Z.div_pos; lia|]. apply le_IZR. lra. }
      assert (Hc : Zceil (fval (S754_finite false m e)) = (if (r =? 0)%Z then q else q + 1)%Z).
      { destruct (Z.eqb_spec r 0) as [E|E].
        - rewrite Hv, E. unfold Rdiv. rewrite Rmult_0_l, Rplus_0_r. apply Zceil_IZR.
        - apply Zceil_imp. rewrite plus_IZR, minus_IZR, plus_IZR. assert (0 < IZR r / IZR (2 ^ k)) by (apply Rdiv_lt_0_compat; [apply IZR_lt; lia|exact P2']). lra. }
      cbn iota. rewrite Hc. apply int_as_f64_ok. destruct (r =? 0)%Z; lia.
Qed.
Lemma fsteps x : fvalid x -> ffin x = true -> 0 <= fval x <= IZR (2 ^ 52) -> exists N, to_usize (add (tceil x) one) = S N /\ INR N - 1 < fval x <= INR N.
Proof.
  intros Hx Fx Hr. destruct (fceil_val x Hx Fx Hr) as (Vc & Fc & Ec). cbn [tceil F64_gops] in *.
  assert (Hc0 : (0 <= Zceil (fval x) <= 2 ^ 52)%Z).
  { split; [apply le_IZR; eapply Rle_trans; [|apply Zceil_ub]; lra|]. apply Zceil_glb. lra. }
  set (c := Zceil (fval x)) in *.
  assert (V1 : fvalid one) by (vm_compute; reflexivity).
  assert (E : ffin (add (F64_ceil x) one) = true /\ fval (add (F64_ceil x) one) = IZR (c + 1)).
  { assert (Er : rnd64 (fval (F64_ceil x) + fval one) = IZR (c + 1)) by (rewrite Ec, fval_one, <- plus_IZR; apply int_small_exact; lia).
    destruct (fadd_round (F64_ceil x) one Vc V1 Fc eq_refl) as [V F]; [|rewrite V, Er; split; [exact F|reflexivity]].
    unfold no_overflow. rewrite Er, <- abs_IZR. apply Rle_lt_trans with (IZR (2 ^ 53)); [apply IZR_le; lia|]. rewrite (IZR_Zpower radix2) by lia. apply bpow_lt. lia. }
  destruct E as [F V]. destruct (float_as_int_cases u64 _ ltac:(reflexivity) F) as (q & Hq & Hi & _).
  rewrite V in Hq. assert (q = (c + 1)%Z) by (apply (is_trunc_unique (IZR (c + 1))); [exact Hq|apply is_trunc_int]). subst q.
  exists (Z.to_nat c). cbn [to_usize F64_gops]. change (SFadd 53 1024) with (@add f64 F64_ops). rewrite Hi by (apply in_ity_iff; change (imin u64) with 0%Z; change (imax u64) with (2 ^ 64 - 1)%Z; lia). split; [lia|].
  rewrite INR_IZR_INZ, Z2Nat.id by lia. split; [|apply Zceil_ub]. unfold c. pose proof (Zceil_lb (fval x)). lra.
Qed.

Section Grid.
Variables (h t0 t1 : f64) (M : R).
Hypothesis Vh : fvalid h. Hypothesis V0 : fvalid t0. Hypothesis V1 : fvalid t1.
Hypothesis Fh : ffin h = true. Hypothesis F0 : ffin t0 = true. Hypothesis F1 : ffin t1 = true.
Hypothesis Hh : 0 < fval h. Hypothesis Ht : fval t0 <= fval t1.
Hypothesis M0 : Rabs (fval t0) <= M. Hypothesis M1 : Rabs (fval t1) <= M. Hypothesis MB : M <= bpow radix2 1000.
Notation g i := (Rmin (fval t0 + INR i * fval h) (fval t1)).

Lemma M_pos : 0 <= M. Proof. eapply Rle_trans; [apply Rabs_pos|exact M0]. Qed.
Lemma big_M : 4 * M <= bpow radix2 1023.
Proof.
  apply Rle_trans with (bpow radix2 1002); [|apply bpow_le; lia].
  replace 1002%Z with (2 + 1000)%Z by lia. rewrite bpow_plus. change (bpow radix2 2) with 4. lra.
Qed.
Lemma g_range i : Rabs (g i) <= M.
Proof.
  pose proof (pos_INR i). assert (0 <= INR i * fval h) by (apply Rmult_le_pos; lra).
  apply Rabs_le. pose proof M0 as A. pose proof M1 as B. apply Rabs_le_inv in A. apply Rabs_le_inv in B. unfold Rmin. destruct (Rle_dec _ _); lra.
Qed.

(** The solver's time step. *)
Definition fnext (t : f64) : f64 := add t (tmin h (sub t1 t)).
Lemma fnext_err t : fvalid t -> ffin t = true -> Rabs (fval t) <= 9 / 8 * M ->
  fvalid (fnext t) /\ ffin (fnext t) = true /\ Rabs (fval (fnext t) - Rmin (fval t + fval h) (fval t1)) <= 4 * uro * M.
Proof.
  intros Vt Ft Bt. pose proof M_pos as MP. pose proof big_M as BM. pose proof uro_pos as U0. assert (U1 : uro <= / 1000) by (rewrite uro_val; lra).
  pose proof M1 as B1. apply Rabs_le_inv in B1. pose proof Bt as Bt'. apply Rabs_le_inv in Bt'.
  assert (D : Rabs (fval t1 - fval t) <= 17 / 8 * M) by (apply Rabs_le; lra).
  destruct (fsub_ok t1 t V1 Vt F1 Ft ltac:(lra)) as (Vd & Fd & Ed). set (d := sub t1 t) in *.
  destruct (tmin_val h d Vh Vd Fh Fd) as (Vm & Fm & Em).
  assert (E1 : Rabs (fval d - (fval t1 - fval t)) <= uro * (17 / 8 * M)) by (eapply Rle_trans; [exact Ed|]; apply Rmult_le_compat_l; lra).
  assert (E2 : Rabs (fval t + fval (tmin h d) - Rmin (fval t + fval h) (fval t1)) <= uro * (17 / 8 * M)).
  { rewrite Em. replace (fval t + Rmin (fval h) (fval d) - Rmin (fval t + fval h) (fval t1)) with (Rmin (fval h) (fval d) - Rmin (fval h) (fval t1 - fval t)); [eapply Rle_trans; [apply Rmin_lip|exact E1]|].
    unfold Rmin. repeat destruct (Rle_dec _ _); lra. }
  assert (S : Rabs (fval t + fval (tmin h d)) <= 9 / 8 * M + uro * (17 / 8 * M)).
  { assert (Rabs (Rmin (fval t + fval h) (fval t1)) <= 9 / 8 * M) by (apply Rabs_le; unfold Rmin; destruct (Rle_dec _ _); lra).
    replace (fval t + fval (tmin h d)) with ((fval t + fval (tmin h d) - Rmin (fval t + fval h) (fval t1)) + Rmin (fval t + fval h) (fval t1)) by ring.
    eapply Rle_trans; [apply Rabs_triang|]. lra. }
  assert (S2 : Rabs (fval t + fval (tmin h d)) <= 10 / 8 * M) by nra.
  destruct (fadd_ok t (tmin h d) Vt Vm Ft Fm ltac:(lra)) as (Va & Fa & Ea). change (add t (tmin h d)) with (fnext t) in *.
  split; [exact Va|]. split; [exact Fa|].
  replace (fval (fnext t) - Rmin (fval t + fval h) (fval t1)) with ((fval (fnext t) - (fval t + fval (tmin h d))) + (fval t + fval (tmin h d) - Rmin (fval t + fval h) (fval t1))) by ring.
  eapply Rle_trans; [apply Rabs_triang|].
  assert (uro * Rabs (fval t + fval (tmin h d)) <= uro * (10 / 8 * M)) by (apply Rmult_le_compat_l; lra). nra.
Qed.
Lemma fnext_mono t : fvalid t -> ffin t = true -> Rabs (fval t) <= 9 / 8 * M -> fval t <= fval t1 -> fval t <= fval (fnext t).
Proof.
  intros Vt Ft Bt Hle. pose proof M_pos as MP. pose proof big_M as BM. pose proof M1 as B1. apply Rabs_le_inv in B1. pose proof Bt as Bt'. apply Rabs_le_inv in Bt'.
  assert (D : Rabs (fval t1 - fval t) <= 17 / 8 * M) by (apply Rabs_le; lra).
  destruct (fsub_round t1 t V1 Vt F1 Ft (no_ov (fval t1 - fval t) ltac:(lra))) as (Ed & Fd). set (d := sub t1 t) in *.
  assert (Vd : fvalid d) by (apply fvalid_sub; assumption).
  destruct (tmin_val h d Vh Vd Fh Fd) as (Vm & Fm & Em).
  assert (D0 : 0 <= fval d) by (rewrite Ed, <- rnd_0; apply round_le; [apply FLT_exp_valid; reflexivity|apply valid_rnd_N|lra]).
  destruct (fnext_err t Vt Ft Bt) as (_ & Fn & _). destruct (fadd_fin t (tmin h d) Vt Vm Fn) as (_ & _ & En).
  unfold fnext. fold d. rewrite En, Em. rewrite <- (rnd_fval t Vt) at 1. apply round_le; [apply FLT_exp_valid; reflexivity|apply valid_rnd_N|].
  unfold Rmin. destruct (Rle_dec _ _); lra.
Qed.

Lemma fgrid_err i : INR i <= IZR (2 ^ 48) -> let t := Nat.iter i fnext t0 in
  fvalid t /\ ffin t = true /\ Rabs (fval t - g i) <= 4 * INR i * uro * M.
Proof.
  induction i as [|i IH]; intros Hi t.
  - unfold t. cbn [Nat.iter INR]. split; [exact V0|]. split; [exact F0|]. rewrite Rmult_0_l, Rplus_0_r, Rmin_left by exact Ht. rewrite Rminus_diag_eq, Rabs_R0 by reflexivity. lra.
  - rewrite S_INR in Hi. destruct (IH ltac:(lra)) as (Vt & Ft & Et). unfold t. cbn [Nat.iter nat_rect] in *. change (nat_rect _ t0 (fun _ => fnext) i) with (Nat.iter i fnext t0) in *.
    set (ti := Nat.iter i fnext t0) in *. pose proof M_pos as MP. pose proof uro_pos as U0.
    assert (Bt : Rabs (fval ti) <= 9 / 8 * M).
    { replace (fval ti) with ((fval ti - g i) + g i) by ring. eapply Rle_trans; [apply Rabs_triang|]. pose proof (g_range i).
      assert (4 * INR i * uro <= / 8). { rewrite uro_val. change (IZR (2 ^ 48)) with 281474976710656 in Hi. lra. }
      assert (4 * INR i * uro * M <= / 8 * M) by (apply Rmult_le_compat_r; lra). lra. }
    destruct (fnext_err ti Vt Ft Bt) as (Vn & Fn & En). split; [exact Vn|]. split; [exact Fn|].
    replace (fval (fnext ti) - g (S i)) with ((fval (fnext ti) - Rmin (fval ti + fval h) (fval t1)) + (Rmin (fval ti + fval h) (fval t1) - Rmin (g i + fval h) (fval t1))).
    + eapply Rle_trans; [apply Rabs_triang|]. assert (Q : Rabs (Rmin (fval ti + fval h) (fval t1) - Rmin (g i + fval h) (fval t1)) <= Rabs (fval ti - g i)).
      { eapply Rle_trans; [apply Rmin_lip_l|]. apply Req_le. f_equal. ring. }
      rewrite S_INR. lra.
    + rewrite S_INR. replace (Rmin (g i + fval h) (fval t1)) with (Rmin (fval t0 + (INR i + 1) * fval h) (fval t1)); [ring|]. unfold Rmin. repeat destruct (Rle_dec _ _); lra.
Qed.
Lemma fgrid_bound i : INR i <= IZR (2 ^ 48) -> Rabs (fval (Nat.iter i fnext t0)) <= 9 / 8 * M.
Proof.
  intros Hi. destruct (fgrid_err i Hi) as (_ & _ & Et). pose proof M_pos as MP. pose proof uro_pos as U0. set (ti := Nat.iter i fnext t0) in *.
  replace (fval ti) with ((fval ti - g i) + g i) by ring. eapply Rle_trans; [apply Rabs_triang|]. pose proof (g_range i).
  assert (4 * INR i * uro <= / 8). { rewrite uro_val. change (IZR (2 ^ 48)) with 281474976710656 in Hi. lra. }
  assert (4 * INR i * uro * M <= / 8 * M) by (apply Rmult_le_compat_r; lra). lra.
Qed.

Hypothesis HQ : (fval t1 - fval t0) / fval h <= IZR (2 ^ 47).
Lemma fcount : let q := div (sub t1 t0) h in fvalid q /\ ffin q = true /\ 0 <= fval q <= IZR (2 ^ 52) /\
  Rabs (fval q - (fval t1 - fval t0) / fval h) <= 3 * uro * ((fval t1 - fval t0) / fval h) + eta64.
Proof.
  intros q. pose proof M_pos as MP. pose proof big_M as BM. pose proof uro_pos as U0. assert (U1 : uro <= / 1000) by (rewrite uro_val; lra).
  pose proof M1 as B1. apply Rabs_le_inv in B1. pose proof M0 as B0. apply Rabs_le_inv in B0.
  set (D := fval t1 - fval t0) in *. assert (D0 : 0 <= D) by (unfold D; lra).
  assert (DB : Rabs D <= 2 * M) by (apply Rabs_le; unfold D; lra).
  destruct (fsub_ok t1 t0 V1 V0 F1 F0 ltac:(fold D; lra)) as (Vd & Fd & Ed). fold D in Ed. set (d := sub t1 t0) in *. rewrite (Rabs_pos_eq D D0) in Ed.
  set (Q := D / fval h) in *. assert (Q0 : 0 <= Q) by (apply Rmult_le_pos; [exact D0|left; now apply Rinv_0_lt_compat]).
  assert (EQ : Rabs (fval d / fval h - Q) <= uro * Q).
  { unfold Q. replace (fval d / fval h - D / fval h) with ((fval d - D) * / fval h) by (field; lra). rewrite Rabs_mult, (Rabs_pos_eq (/ fval h)) by (left; now apply Rinv_0_lt_compat).
    unfold Rdiv. rewrite <- Rmult_assoc. apply Rmult_le_compat_r; [left; now apply Rinv_0_lt_compat|exact Ed]. }
  assert (B47 : IZR (2 ^ 47) = 140737488355328) by reflexivity. rewrite B47 in HQ.
  assert (X0 : 0 <= fval d / fval h). { apply Rmult_le_pos; [|left; now apply Rinv_0_lt_compat]. apply Rabs_le_inv in Ed. nra. }
  assert (XB : fval d / fval h <= 2 * Q) by (apply Rabs_le_inv in EQ; nra).
  assert (X1 : Rabs (fval d / fval h) <= bpow radix2 1023).
  { rewrite Rabs_pos_eq by exact X0. apply Rle_trans with (bpow radix2 48); [|apply bpow_le; lia]. rewrite <- (IZR_Zpower radix2) by lia. change (IZR (radix2 ^ 48)) with 281474976710656. lra. }
  destruct (fdiv_ok d h Vd Vh Fd Fh ltac:(lra) X1) as (Vq & Fq & Eq). fold q in Vq, Fq, Eq. split; [exact Vq|]. split; [exact Fq|].
  rewrite (Rabs_pos_eq (fval d / fval h) X0) in Eq. pose proof eta64_pos as N0. assert (N1 : eta64 <= 1) by (unfold eta64; change 1 with (bpow radix2 0); apply bpow_le; lia).
  assert (Bq : Rabs (fval q - Q) <= 3 * uro * Q + eta64).
  { replace (fval q - Q) with ((fval q - fval d / fval h) + (fval d / fval h - Q)) by ring. eapply Rle_trans; [apply Rabs_triang|]. assert (uro * (fval d / fval h) <= uro * (2 * Q)) by (apply Rmult_le_compat_l; lra). lra. }
  split; [|exact Bq]. split.
  - unfold q. destruct (fdiv_fin d h Vd Vh Fh Fq) as (_ & _ & E). rewrite E, <- rnd_0. apply round_le; [apply FLT_exp_valid; reflexivity|apply valid_rnd_N|exact X0].
  - change (IZR (2 ^ 52)) with 4503599627370496. apply Rabs_le_inv in Bq. nra.
Qed.

Lemma fixed_solve_f64 (step : f64 -> vector f64 -> f64 -> outcome (vector f64)) init tv xv : fixed_solve h step t0 t1 init = Ret (tv, xv) ->
  exists N, Rabs (INR N - (fval t1 - fval t0) / fval h) <= 1 + 3 * uro * ((fval t1 - fval t0) / fval h) + eta64 /\
    (fval t1 - fval t0) / fval h * (1 - 3 * uro) - eta64 <= INR N /\
    length tv = S N /\ length xv = S N /\ nth 0 tv zero = t0 /\ nth 0 xv (mkMatrix 0 0 []) = init /\
    (forall i, (i <= N)%nat -> nth i tv zero = Nat.iter i fnext t0) /\
    (forall i, (i < N)%nat -> step (nth i tv zero) (nth i xv (mkMatrix 0 0 [])) (tmin h (sub t1 (nth i tv zero))) = Ret (nth (S i) xv (mkMatrix 0 0 []))).
Proof.
  intros E. unfold fixed_solve in E. destruct (ltb t1 t0); [discriminate|]. cbv zeta in E.
  destruct fcount as (Vq & Fq & Rq & Eq). destruct (fsteps _ Vq Fq Rq) as (N & HN & HNb). rewrite HN in E. clear HN.
  match type of E with bind (for_loop 0 _ ?b ?s) _ = _ => destruct (for_loop 0 (S N) b s) as [st|] eqn:EL; [|discriminate] end.
  cbn [bind] in E. destruct st as [[[tv' xv'] tn'] xn']. injection E as -> ->.
  apply (for_loop_inv (fun i (st : list f64 * list (vector f64) * f64 * vector f64) => let '(tv, xv, tn, xn) := st in
     length tv = i /\ length xv = i /\ tn = Nat.iter i fnext t0 /\ (forall k, (k < i)%nat -> nth k tv zero = Nat.iter k fnext t0) /\ nth 0 (xv ++ [xn]) (mkMatrix 0 0 []) = init /\
     (forall k, (k < i)%nat -> step (Nat.iter k fnext t0) (nth k (xv ++ [xn]) (mkMatrix 0 0 [])) (tmin h (sub t1 (Nat.iter k fnext t0))) = Ret (nth (S k) (xv ++ [xn]) (mkMatrix 0 0 []))))) in EL.
  - destruct EL as (L1 & L2 & _ & HT & HI & HS). exists N.
    split; [apply Rabs_le_inv in Eq; apply Rabs_le; lra|]. split; [apply Rabs_le_inv in Eq; lra|]. split; [exact L1|]. split; [exact L2|].
    split; [apply (HT 0%nat); lia|]. split; [rewrite app_nth1 in HI by lia; exact HI|]. split; [intros i Hi; apply HT; lia|].
    intros i Hi. rewrite HT by lia. specialize (HS i ltac:(lia)). rewrite !app_nth1 in HS by lia. exact HS.
  - lia.
  - repeat split; intros; try lia.
  - intros i [[[tw xw] tn] xn] st' Hi (L1 & L2 & -> & HT & HI & HS). destruct (step _ xn _) as [xn1|] eqn:Es; [|discriminate]. cbn [bind]. intros [= <-].
    split; [rewrite app_length, L1; cbn; lia|]. split; [rewrite app_length, L2; cbn; lia|]. split; [reflexivity|].
    split; [intros k Hk; destruct (Nat.eq_dec k i) as [->|]; [rewrite <- L1 at 1; apply nth_middle|rewrite app_nth1 by lia; apply HT; lia]|].
    split; [rewrite app_nth1 by (rewrite app_length; cbn; lia); exact HI|].
    intros k Hk. destruct (Nat.eq_dec k i) as [->|].
    + rewrite (app_nth1 (xw ++ [xn]) [xn1] (mkMatrix 0 0 []) (n := i)) by (rewrite app_length; cbn; lia). replace (S i) with (length (xw ++ [xn])) by (rewrite app_length, L2; cbn; lia).
      rewrite (nth_middle (xw ++ [xn]) []). rewrite <- L2. rewrite (nth_middle xw []). rewrite L2. exact Es.
    + rewrite !(app_nth1 (xw ++ [xn])) by (rewrite app_length; cbn; lia). apply HS. lia.
Qed.
End Grid.

Lemma count_small h t0 t1 : 0 < fval h -> fval t0 <= fval t1 -> (fval t1 - fval t0) / fval h <= IZR (2 ^ 47) -> forall N,
  Rabs (INR N - (fval t1 - fval t0) / fval h) <= 1 + 3 * uro * ((fval t1 - fval t0) / fval h) + eta64 -> INR N <= IZR (2 ^ 48).
Proof.
  intros Hh Ht HQ N HN. set (Q := (fval t1 - fval t0) / fval h) in *. change (IZR (2 ^ 47)) with 140737488355328 in HQ. change (IZR (2 ^ 48)) with 281474976710656.
  assert (N1 : eta64 <= 1) by (unfold eta64; change 1 with (bpow radix2 0); apply bpow_le; lia).
  assert (Q0 : 0 <= Q) by (apply Rmult_le_pos; [lra|left; now apply Rinv_0_lt_compat]).
  assert (3 * uro * Q <= 1) by (rewrite uro_val; lra). apply Rabs_le_inv in HN. lra.
Qed.
Lemma last_nth {A} (l : list A) : forall N d, length l = S N -> last l d = nth N l d.
Proof.
  induction l as [|a l IH]; intros N d H; [discriminate|]. destruct l as [|b l]; [destruct N; [reflexivity|discriminate]|].
  destruct N as [|N]; [discriminate|]. change (nth (S N) (a :: b :: l) d) with (nth N (b :: l) d). rewrite <- (IH N d) by (cbn in *; lia). reflexivity.
Qed.
Lemma grid_last h t0 t1 M : 0 < fval h -> fval t0 <= fval t1 -> Rabs (fval t0) <= M -> Rabs (fval t1) <= M -> forall N t,
  (fval t1 - fval t0) / fval h * (1 - 3 * uro) - eta64 <= INR N ->
  Rabs (fval t - Rmin (fval t0 + INR N * fval h) (fval t1)) <= 4 * INR N * uro * M ->
  Rabs (fval t - fval t1) <= (4 * (INR N + 1) + 2) * uro * M + eta64 * fval h.
Proof.
  intros Hh Ht M0 M1 N t HN G. pose proof uro_pos as U0. pose proof eta64_pos as E0. apply Rabs_le_inv in M0. apply Rabs_le_inv in M1.
  set (D := fval t1 - fval t0) in *. assert (HD : D / fval h * fval h = D) by (field; lra).
  assert (K : D * (1 - 3 * uro) - eta64 * fval h <= INR N * fval h).
  { replace (D * (1 - 3 * uro)) with (D / fval h * (1 - 3 * uro) * fval h) by (rewrite <- HD at 2; ring). rewrite <- Rmult_minus_distr_r. apply Rmult_le_compat_r; lra. }
  assert (DM : D * uro <= 2 * M * uro) by (apply Rmult_le_compat_r; unfold D; lra).
  assert (P : 0 <= eta64 * fval h) by (apply Rmult_le_pos; lra).
  assert (MU : 0 <= M * uro) by (apply Rmult_le_pos; lra).
  assert (L : Rabs (Rmin (fval t0 + INR N * fval h) (fval t1) - fval t1) <= 6 * uro * M + eta64 * fval h).
  { apply Rabs_le. unfold D in K, DM. unfold Rmin. destruct (Rle_dec _ _); lra. }
  replace (fval t - fval t1) with ((fval t - Rmin (fval t0 + INR N * fval h) (fval t1)) + (Rmin (fval t0 + INR N * fval h) (fval t1) - fval t1)) by ring.
  eapply Rle_trans; [apply Rabs_triang|]. lra.
Qed.
Lemma grid_overshoot : exists tv xv,
  fixed_solve (of_Z 2 : f64) (do_step explicit_euler (fun _ x => Ret x)) (of_Z (-1)) (S754_finite false 6755399441055744 (-105)) (vzero 1) = Ret (tv, xv) /\
  length tv = 2%nat /\ ltb (S754_finite false 6755399441055744 (-105)) (last tv zero) = true.
Proof. eexists. eexists. split; [vm_compute; reflexivity|]. split; vm_compute; reflexivity. Qed.
Lemma grid_extra : exists tv xv,
  fixed_solve (lit 1 10 : f64) (do_step explicit_euler (fun _ x => Ret x)) (lit 1 2) (lit 4 5) (vzero 1) = Ret (tv, xv) /\ length tv = 5%nat.
Proof. eexists. eexists. split; vm_compute; reflexivity. Qed.
Lemma fval_pos m e : 0 < fval (S754_finite false m e).
Proof. change (0 < IZR (Zpos m) * bpow radix2 e). apply Rmult_lt_0_compat; [apply IZR_lt; lia|apply bpow_gt_0]. Qed.
Lemma grid_example : fvalid (lit 1 10) /\ ffin (lit 1 10 : f64) = true /\ 0 < fval (lit 1 10) /\ fval zero <= fval one /\
  (exists tv xv, fixed_solve (lit 1 10 : f64) (do_step explicit_euler (fun _ x => Ret x)) zero one (vzero 1) = Ret (tv, xv) /\ length tv = 11%nat).
Proof.
  split; [vm_compute; reflexivity|]. split; [vm_compute; reflexivity|].
  split; [|split; [|eexists; eexists; split; vm_compute; reflexivity]].
  - let v := eval vm_compute in (lit 1 10 : f64) in change (lit 1 10 : f64) with v. apply fval_pos.
  - change (fval zero) with 0. let v := eval vm_compute in (one : f64) in change (one : f64) with v. left. apply fval_pos.
Qed.

Lemma fixed_solve_returns (h t0 t1 : f64) (step : f64 -> vector f64 -> f64 -> outcome (vector f64)) init :
  ltb t1 t0 = false -> (forall t x w, exists y, step t x w = Ret y) -> exists tv xv, fixed_solve h step t0 t1 init = Ret (tv, xv).
Proof.
  intros Hlt Hs. unfold fixed_solve. rewrite Hlt. cbv zeta.
  match goal with |- context [for_loop 0 ?n ?b ?s] => destruct (for_loop_ind (fun _ _ => True) b 0 n s) as (st & -> & _) end.
  - lia.
  - exact I.
  - intros i [[[tv xv] tn] xn] _ _. destruct (Hs tn xn (tmin h (sub t1 tn))) as (y & ->). cbn [bind]. eexists. split; [reflexivity|exact I].
  - destruct st as [[[tv xv] tn] xn]. exists tv, xv. reflexivity.
Qed.
