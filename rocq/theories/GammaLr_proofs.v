(** Accuracy of the regularised incomplete gamma function in all its branches, and of the error function. *)
From Coq Require Import Arith Lia List Bool ZArith Reals Lra Psatz.
From Coquelicot Require Import Coquelicot.
From Verif Require Import Outcome Scalar RealOps Elem_model Int_model Ode_model Special_model.
From Verif Require Import Stat_spec Special_spec Gauss_proofs Discrete_proofs OdeOrder_proofs Continuous_proofs Normal_proofs Special_proofs GammaTerm_proofs GammaFun_proofs StatExtra_proofs SpecialNew_proofs.
From Verif Require Import Stirling_proofs LanczosAcc_proofs LnGammaAcc_proofs Reflection_proofs GammaAll_proofs GammaCF_proofs.
Local Open Scope R_scope.

(** exp(ln_gamma a) is Gamma(a) up to a relative error of 5e-17. *)
Lemma exp_sln a g : 0 < a -> euler_gamma a g -> (1 - 5 / 100000000000000000) * g <= exp (sln_gamma a) <= (1 + 5 / 100000000000000000) * g.
Proof.
  intros Ha Hg. pose proof (euler_gamma_pos _ _ Hg) as Pg. pose proof (sln_gamma_accuracy_pos a g Ha Hg) as A. apply Rabs_le_between in A.
  set (e := sln_gamma a - ln g) in *. replace (exp (sln_gamma a)) with (exp e * g).
  2:{ unfold e, Rminus. rewrite exp_plus, exp_Ropp, exp_ln by assumption. field. lra. }
  split; apply Rmult_le_compat_r; try lra.
  - pose proof (exp_ineq1_le e). lra.
  - pose proof (exp_ineq1_le (- e)) as H. rewrite exp_Ropp in H. pose proof (exp_pos e) as P.
    assert (exp e * (1 + - e) <= 1). { apply Rle_trans with (exp e * / exp e); [apply Rmult_le_compat_l; lra|]. right. field. lra. }
    assert (exp e * (1 - 4 / 100000000000000000) <= exp e * (1 + - e)) by (apply Rmult_le_compat_l; lra). lra.
Qed.
(** ** Series branch *)
Lemma sgamma_lr_series_acc k a x v F : 0 < a -> 0 < x -> x <= 1 \/ x <= a ->
  - (70978271289338399 / 100000000000000) <= a * ln x - x - sln_gamma a ->
  is_gamma_lr a F -> sgamma_lr k a x = Ret (Some v) ->
  0 <= v /\ Rabs (v - F x) <= 11 / 10000000000000000 * Rmax 1 x * v.
Proof.
  intros Ha Hx Hxa Hax [g HF] E. destruct (sgamma_lr_accuracy k a x v g F Ha Hx Hxa Hax HF E) as [L U].
  pose proof (glr_gamma _ _ _ HF) as Hg. pose proof (euler_gamma_pos _ _ Hg) as Pg. destruct (exp_sln a g Ha Hg) as [S1 S2].
  pose proof (exp_pos (sln_gamma a)) as EP. set (e := exp (sln_gamma a)) in *. pose proof (Rmax_l 1 x) as M1. set (M := Rmax 1 x) in *.
  assert (FE : F x = F x * (g / e) * (e / g)) by (field; lra).
  assert (R1 : 1 - 5 / 100000000000000000 <= e / g) by (apply Rmult_le_reg_r with g; [assumption|]; unfold Rdiv at 2; rewrite Rmult_assoc, Rinv_l; lra).
  assert (R2 : e / g <= 1 + 5 / 100000000000000000) by (apply Rmult_le_reg_r with g; [assumption|]; unfold Rdiv at 1; rewrite Rmult_assoc, Rinv_l; lra).
  set (r := e / g) in *. set (T := F x * (g / e)) in *. assert (V0 : 0 <= v).
  { assert (0 <= v * (/ 1000000000000000 * M)) by lra. apply Rmult_le_reg_r with (/ 1000000000000000 * M); lra. }
  split; [exact V0|]. rewrite FE. clearbody r T M. clear - L U R1 R2 M1 V0.
  assert (0 <= v * M) by (apply Rmult_le_pos; lra). assert (v * 1 <= v * M) by (apply Rmult_le_compat_l; lra).
  assert (T0 : 0 <= T) by lra.
  assert (T * r <= T * (1 + 5 / 100000000000000000)) by (apply Rmult_le_compat_l; lra).
  assert (T * (1 - 5 / 100000000000000000) <= T * r) by (apply Rmult_le_compat_l; lra).
  apply Rabs_le. split; lra.
Qed.
(** ** Continued fraction branch *)
Lemma sgamma_lr_cf_acc k a x v F : 0 < a -> 1 < x -> a < x ->
  - (70978271289338399 / 100000000000000) <= a * ln x - x - sln_gamma a ->
  is_gamma_lr a F -> sgamma_lr k a x = Ret (Some v) ->
  v <= 1 /\ Rabs (v - F x) <= 13 / 100000000000000 * (1 - v).
Proof.
  intros Ha Hx Hxa Hax [g HF] E. pose proof (glr_gamma _ _ _ HF) as Hg. pose proof (euler_gamma_pos _ _ Hg) as Pg. destruct (exp_sln a g Ha Hg) as [S1 S2].
  unfold sgamma_lr in E. revert E. rb. rops. rewrite lit_R. repeat (rcase; try lra); try (destruct (Rle_dec x a); lra).
  all: cbn [orb]; destruct (lr_cf k (1 - a) (x + (1 - a) + 1) 0 1 x (x + 1) ((x + (1 - a) + 1) * x) ((x + 1) / ((x + (1 - a) + 1) * x))) as [w|] eqn:W; [|discriminate].
  all: intros E; apply Ret_inj in E; injection E as <-.
  all: destruct (lr_cf_accuracy a g F x k w Ha ltac:(lra) ltac:(lra) HF W) as [Pw Aw].
  all: pose proof (exp_pos (sln_gamma a)) as EP; set (e := exp (sln_gamma a)) in *.
  all: assert (X : exp (a * ln x - x - sln_gamma a) = Rpower x a * exp (- x) / e) by (unfold Rminus, Rdiv, Rpower, e; rewrite !exp_plus, (exp_Ropp (sln_gamma a)); reflexivity).
  all: rewrite X; set (W0 := Rpower x a * exp (- x)) in *; assert (PW : 0 < W0) by (apply Rmult_lt_0_compat; apply exp_pos).
  all: assert (FE : 1 - F x = W0 / e * (cG a g F x * (e / g))) by (unfold cG; fold W0; field; lra).
  all: assert (R1 : 1 - 5 / 100000000000000000 <= e / g) by (apply Rmult_le_reg_r with g; [assumption|]; unfold Rdiv at 2; rewrite Rmult_assoc, Rinv_l; lra).
  all: assert (R2 : e / g <= 1 + 5 / 100000000000000000) by (apply Rmult_le_reg_r with g; [assumption|]; unfold Rdiv at 1; rewrite Rmult_assoc, Rinv_l; lra).
  all: assert (PC : 0 < W0 / e) by (now apply Rdiv_lt_0_compat).
  all: set (c := W0 / e) in *; set (r := e / g) in *; set (G := cG a g F x) in *.
  all: split; [assert (0 < c * w) by (now apply Rmult_lt_0_compat); lra|].
  all: replace (1 - c * w - F x) with (c * (G * r - w)) by lra.
  all: rewrite Rabs_mult, (Rabs_pos_eq c) by lra.
  all: replace (13 / 100000000000000 * (1 - (1 - c * w))) with (c * (13 / 100000000000000 * w)) by ring.
  all: apply Rmult_le_compat_l; [lra|]; apply Rabs_le_between in Aw; clearbody c r G; clear - Aw R1 R2 Pw.
  all: assert (G0 : 0 <= G) by lra.
  all: assert (G * r <= G * (1 + 5 / 100000000000000000)) by (apply Rmult_le_compat_l; lra).
  all: assert (G * (1 - 5 / 100000000000000000) <= G * r) by (apply Rmult_le_compat_l; lra).
  all: apply Rabs_le; split; lra.
Qed.
(** ** Underflow branch *)
Lemma exp_709_gen n m (l p q : Z) y : (0 < q)%Z -> IZR l <= exp (IZR p / IZR q) -> (0 <= l)%Z -> INR n * (IZR p / IZR q) < y ->
  Z.leb (10 ^ Z.of_nat m * 100001) (100000 * l ^ Z.of_nat n) = true ->
  exp (- y) * (1 + 5 / 1000000000) <= / 10 ^ m.
Proof.
  intros Hq Hl L0 H Z. apply Z.leb_le in Z. apply IZR_le in Z. rewrite !mult_IZR, <- !pow_IZR in Z. apply IZR_le in L0.
  assert (P : IZR l ^ n <= exp y).
  { apply Rle_trans with (exp (IZR p / IZR q) ^ n); [apply pow_incr; lra|]. rewrite <- exp_INR. left. now apply exp_increasing. }
  rewrite exp_Ropp. assert (T0 : 0 < 10 ^ m) by (apply pow_lt; lra). pose proof (exp_pos y) as EP.
  set (u := exp y) in *. set (t := 10 ^ m) in *. set (w := IZR l ^ n) in *. clearbody u t w.
  apply Rmult_le_reg_r with (u * t); [now apply Rmult_lt_0_compat|].
  replace (/ u * (1 + 5 / 1000000000) * (u * t)) with ((1 + 5 / 1000000000) * t) by (field; lra).
  replace (/ t * (u * t)) with u by (field; lra). lra.
Qed.
Lemma ex_709_ck : zexp_ck 2837 64 17842679750605641205 17842679750605641206 1 130 = true.
Proof. vm_compute. reflexivity. Qed.
Lemma exp_709 : exp (- (70978271289338399 / 100000000000000)) * (1 + 5 / 1000000000) <= / 10 ^ 308.
Proof.
  destruct (zexp_bounds _ _ _ _ _ _ ex_709_ck) as [L _]. unfold Rdiv at 1 in L. rewrite Rinv_1, Rmult_1_r in L.
  apply (exp_709_gen 16 308 17842679750605641205 2837 64).
  - reflexivity.
  - exact L.
  - discriminate.
  - cbn [INR]. lra.
  - vm_compute. reflexivity.
Qed.
Lemma upper_small a g F x : a <= 1 -> 0 < x -> is_glr a g F -> g * (1 - F x) <= Rpower x (a - 1) * exp (- x).
Proof.
  intros Ha Hx (Pg & DF & _ & LF).
  assert (H : 0 <= Rpower x (a - 1) * exp (- x) - g * (1 - F x)); [|lra].
  apply (decr_lim_0 (fun t => Rpower t (a - 1) * exp (- t) - g * (1 - F t)) (fun t => (a - 1) / t * (Rpower t (a - 1) * exp (- t)))).
  - intros t Ht.
    replace ((a - 1) / t * (Rpower t (a - 1) * exp (- t))) with (((a - 1) / t - 1) * (Rpower t (a - 1) * exp (- t)) - g * (0 - Rpower t (a - 1) * exp (- t) / g)) by (field; lra).
    apply (is_derive_minus (fun t => Rpower t (a - 1) * exp (- t)) (fun t => g * (1 - F t))).
    + unfold Rpower. auto_derive; [lra|]. match goal with |- ?a = ?b => change (@eq R a b) end. field. lra.
    + apply is_derive_scal. apply (is_derive_minus (fun _ => 1) F); [exact (is_derive_const 1 t)|apply DF; lra].
  - intros t Ht. pose proof (gint_pos a t). assert (0 <= (1 - a) / t * (Rpower t (a - 1) * exp (- t))).
    { apply Rmult_le_pos; [|lra]. apply Rmult_le_pos; [lra|left; apply Rinv_0_lt_compat; lra]. }
    replace ((a - 1) / t) with (- ((1 - a) / t)) by (field; lra). lra.
  - replace (Finite 0) with (Finite (0 - g * (1 - 1))) by (f_equal; ring).
    apply (is_lim_minus' (fun t => Rpower t (a - 1) * exp (- t)) (fun t => g * (1 - F t))); [apply gterm_lim_inf|].
    replace (Finite (g * (1 - 1))) with (Rbar_mult g (1 - 1)) by reflexivity. apply is_lim_scal_l. apply (is_lim_minus' (fun _ => 1) F); [apply is_lim_const|exact LF].
Qed.
Lemma upper_bound a g F x : 0 < a -> 0 < x -> a < x -> is_glr a g F -> g * (1 - F x) <= Rpower x a * exp (- x) * (1 + 1 / x).
Proof.
  intros Ha Hx Hax HF. assert (PX : Rpower x a = Rpower x (a - 1) * x).
  { rewrite <- (Rpower_1 x) at 3 by lra. rewrite <- Rpower_plus. f_equal. ring. }
  pose proof (gint_pos a x) as G. set (w := Rpower x (a - 1) * exp (- x)) in *.
  destruct (Rle_dec a 1) as [L|L].
  - pose proof (upper_small a g F x L Hx HF) as U. rewrite PX. replace (Rpower x (a - 1) * x * exp (- x) * (1 + 1 / x)) with (w * (x + 1)) by (unfold w; field; lra).
    assert (0 <= w * x) by (apply Rmult_le_pos; lra). fold w in U. lra.
  - pose proof (cE_error a g F 0 x Ha ltac:(lra) ltac:(lra) HF) as B. cbn [ck] in B. rewrite cq_0 in B. unfold cE in B. rewrite cp_0, cq_0 in B. fold w in B.
    rewrite (Rabs_pos_eq (a - 1)) in B by lra. apply Rabs_le_between in B. destruct B as [B _].
    set (U := g * (1 - F x)) in *. replace (w * (1 / 1)) with w in B by field. replace (x * (1 * 1)) with x in B by ring.
    assert (U * (x - (a - 1)) <= w * x).
    { apply (Rmult_le_compat_r x) in B; [|lra]. replace (- ((a - 1) / x * U) * x) with (- ((a - 1) * U)) in B by (field; lra). lra. }
    rewrite PX. replace (Rpower x (a - 1) * x * exp (- x) * (1 + 1 / x)) with (w * x + w) by (unfold w; field; lra).
    destruct (Rle_dec U 0) as [U0|U0]; [assert (0 <= w * x) by (apply Rmult_le_pos; lra); lra|].
    assert (U * 1 <= U * (x - (a - 1))) by (apply Rmult_le_compat_l; lra). lra.
Qed.
Lemma lower_bound a g F x : 0 < a -> 0 < x -> x <= a -> is_glr a g F -> 0 <= g * F x <= Rpower x a * exp (- x) * (1 + 3 / a).
Proof.
  intros Ha Hx Hax HF. assert (Pg : 0 < g) by apply HF. rewrite (glr_series a g F x Ha Hx HF).
  destruct (lgt_tail a x 1 Ha Hx (le_n 1) (or_intror Hax)) as (S & HS & L & U). rewrite (lgt_pseries a x S HS).
  set (w := Rpower x a * exp (- x)). assert (W : 0 < w) by (apply Rmult_lt_0_compat; apply exp_pos).
  replace (g * (w / (a * g) * S)) with (w * (S / a)) by (field; lra).
  cbn [sum_f_R0] in L, U. replace (lower_gamma_term a x 0) with 1 in * by (unfold lower_gamma_term; cbn; field).
  replace (lower_gamma_term a x 1) with (x / (a + 1)) in * by (unfold lower_gamma_term; cbn; field; lra).
  assert (Q : 0 < x / (a + 1) <= 1). { split; [apply Rdiv_lt_0_compat; lra|]. apply Rmult_le_reg_r with (a + 1); [lra|]. unfold Rdiv. rewrite Rmult_assoc, Rinv_l by lra. lra. }
  assert (M : Rmax 1 x <= 1 + x) by (apply Rmax_lub; lra). pose proof (Rmax_l 1 x) as M1.
  assert (SU : S <= 3 + a). { assert (x / (a + 1) * Rmax 1 x <= 1 * (1 + x)) by (apply Rmult_le_compat; lra). lra. }
  split.
  - apply Rmult_le_pos; [lra|]. apply Rmult_le_pos; [lra|left; now apply Rinv_0_lt_compat].
  - apply Rmult_le_compat_l; [lra|]. replace (1 + 3 / a) with ((3 + a) / a) by (field; lra). unfold Rdiv. apply Rmult_le_compat_r; [left; now apply Rinv_0_lt_compat|exact SU].
Qed.
Lemma glr_le_1 a g F x : 0 < x -> is_glr a g F -> F x <= 1.
Proof.
  intros Hx (Pg & DF & _ & LF). assert (H : 0 <= 1 - F x); [|lra].
  apply (decr_lim_0 (fun t => 1 - F t) (fun t => 0 - Rpower t (a - 1) * exp (- t) / g)).
  - intros t Ht. apply (is_derive_minus (fun _ => 1) F); [exact (is_derive_const 1 t)|apply DF; lra].
  - intros t Ht. pose proof (gint_pos a t). assert (0 < Rpower t (a - 1) * exp (- t) / g) by now apply Rdiv_lt_0_compat. lra.
  - replace (Finite 0) with (Finite (1 - 1)) by (f_equal; ring). apply (is_lim_minus' (fun _ => 1) F); [apply is_lim_const|exact LF].
Qed.
Lemma sgamma_lr_under_acc k a x v F : 0 < a -> 0 < x ->
  a * ln x - x - sln_gamma a < - (70978271289338399 / 100000000000000) ->
  is_gamma_lr a F -> sgamma_lr k a x = Ret (Some v) ->
  Rabs (v - F x) <= (1 + 3 / Rmax a x) / 10 ^ 308.
Proof.
  intros Ha Hx Hax [g HF] E. pose proof (glr_gamma _ _ _ HF) as Hg. pose proof (euler_gamma_pos _ _ Hg) as Pg. destruct (exp_sln a g Ha Hg) as [_ S2].
  pose proof (exp_pos (sln_gamma a)) as EP. set (e := exp (sln_gamma a)) in *.
  assert (X : exp (a * ln x - x - sln_gamma a) = Rpower x a * exp (- x) / e) by (unfold Rminus, Rdiv, Rpower, e; rewrite !exp_plus, (exp_Ropp (sln_gamma a)); reflexivity).
  assert (X' : exp (a * ln x - x - sln_gamma a) < exp (- (70978271289338399 / 100000000000000))) by now apply exp_increasing.
  pose proof exp_709 as X9. rewrite X in X'. set (w := Rpower x a * exp (- x)) in *. assert (W : 0 < w) by (apply Rmult_lt_0_compat; apply exp_pos).
  assert (WG : w / g <= / 10 ^ 308).
  { apply Rle_trans with (2 := X9). pose proof (exp_pos (- (70978271289338399 / 100000000000000))) as E9.
    assert (WE : 0 < w / e) by now apply Rdiv_lt_0_compat. replace (w / g) with (w / e * (e / g)) by (field; lra).
    apply Rmult_le_compat; [lra|left; now apply Rdiv_lt_0_compat|lra|].
    apply Rmult_le_reg_r with g; [assumption|]. unfold Rdiv at 1. rewrite Rmult_assoc, Rinv_l by lra. lra. }
  assert (T0 : 0 < / 10 ^ 308) by (apply Rinv_0_lt_compat, pow_lt; lra).
  set (t := / 10 ^ 308) in *. unfold Rdiv at 1. fold t. clearbody t.
  assert (V : v = if Rlt_dec a x then 1 else 0).
  { unfold sgamma_lr in E. revert E. rb. rops. rewrite lit_R. repeat (rcase; try lra); intros E; apply Ret_inj in E; injection E as <-; reflexivity. }
  destruct (Rlt_dec a x) as [L|L]; subst v.
  - pose proof (upper_bound a g F x Ha Hx L HF) as U. fold w in U. rewrite Rmax_right by lra.
    assert (F x <= 1) by now apply (glr_le_1 a g F x).
    rewrite Rabs_pos_eq by lra. apply Rmult_le_reg_l with g; [assumption|]. apply Rle_trans with (1 := U).
    replace (w * (1 + 1 / x)) with (g * (w / g * (1 + 1 / x))) by (field; lra). apply Rmult_le_compat_l; [lra|]. rewrite (Rmult_comm _ t).
    assert (0 < 1 / x <= 3 / x). { split; [apply Rdiv_lt_0_compat; lra|]. unfold Rdiv. apply Rmult_le_compat_r; [left; now apply Rinv_0_lt_compat|lra]. }
    apply Rmult_le_compat; [left; now apply Rdiv_lt_0_compat|lra|assumption|lra].
  - destruct (lower_bound a g F x Ha Hx ltac:(lra) HF) as [U0 U]. fold w in U. rewrite Rmax_left by lra.
    assert (F0 : 0 <= F x) by (apply Rmult_le_reg_l with g; lra).
    rewrite Rabs_left1 by lra. replace (- (0 - F x)) with (F x) by ring. apply Rmult_le_reg_l with g; [assumption|]. apply Rle_trans with (1 := U).
    replace (w * (1 + 3 / a)) with (g * (w / g * (1 + 3 / a))) by (field; lra). apply Rmult_le_compat_l; [lra|]. rewrite (Rmult_comm _ t).
    assert (0 < 3 / a) by (apply Rdiv_lt_0_compat; lra).
    apply Rmult_le_compat; [left; now apply Rdiv_lt_0_compat|lra|assumption|lra].
Qed.

(** ** All branches together *)
Lemma sgamma_lr_abs k a x v F : 0 < a -> 0 < x -> is_gamma_lr a F -> sgamma_lr k a x = Ret (Some v) ->
  Rabs (v - F x) <= 13 / 100000000000000 * Rmax 0 (1 - v) + 11 / 10000000000000000 * Rmax 1 (Rmin a x) * Rmax 0 v + (1 + 3 / Rmax a x) / 10 ^ 308.
Proof.
  intros Ha Hx HF E. assert (T : 0 < (1 + 3 / Rmax a x) / 10 ^ 308).
  { apply Rdiv_lt_0_compat; [|apply pow_lt; lra]. pose proof (Rmax_l a x). assert (0 < 3 / Rmax a x) by (apply Rdiv_lt_0_compat; lra). lra. }
  pose proof (Rmax_l 0 (1 - v)) as M0. pose proof (Rmax_r 0 (1 - v)) as M0'. pose proof (Rmax_l 1 (Rmin a x)) as M1.
  pose proof (Rmax_l 0 v) as N0. pose proof (Rmax_r 0 v) as N0'.
  set (t := (1 + 3 / Rmax a x) / 10 ^ 308) in *.
  assert (MN : 0 <= Rmax 1 (Rmin a x) * Rmax 0 v) by (apply Rmult_le_pos; lra).
  assert (MV : Rmax 1 (Rmin a x) * v <= Rmax 1 (Rmin a x) * Rmax 0 v) by (apply Rmult_le_compat_l; lra).
  destruct (Rlt_dec (a * ln x - x - sln_gamma a) (- (70978271289338399 / 100000000000000))) as [U|U].
  - pose proof (sgamma_lr_under_acc k a x v F Ha Hx U HF E) as B. fold t in B. lra.
  - destruct (Rle_dec x 1) as [L|L]; [|destruct (Rle_dec x a) as [L'|L']].
    + destruct (sgamma_lr_series_acc k a x v F Ha Hx (or_introl L) ltac:(lra) HF E) as [V0 B]. rewrite (Rmax_left 1 x) in B by lra. assert (1 * v <= Rmax 1 (Rmin a x) * v) by (apply Rmult_le_compat_r; lra). lra.
    + destruct (sgamma_lr_series_acc k a x v F Ha Hx (or_intror L') ltac:(lra) HF E) as [V0 B]. rewrite (Rmin_right a x) in * by lra. lra.
    + destruct (sgamma_lr_cf_acc k a x v F Ha ltac:(lra) ltac:(lra) ltac:(lra) HF E) as [V1 B]. lra.
Qed.

Lemma sgamma_lr_lower k a x v F : 0 < a -> 0 < x -> x <= 1 \/ x <= a -> is_gamma_lr a F -> sgamma_lr k a x = Ret (Some v) ->
  0 <= v /\ Rabs (v - F x) <= 11 / 10000000000000000 * Rmax 1 x * v + (1 + 3 / Rmax a x) / 10 ^ 308.
Proof.
  intros Ha Hx Hxa HF E. assert (T : 0 < (1 + 3 / Rmax a x) / 10 ^ 308).
  { apply Rdiv_lt_0_compat; [|apply pow_lt; lra]. pose proof (Rmax_l a x). assert (0 < 3 / Rmax a x) by (apply Rdiv_lt_0_compat; lra). lra. }
  set (t := (1 + 3 / Rmax a x) / 10 ^ 308) in *. pose proof (Rmax_l 1 x) as M1.
  destruct (Rlt_dec (a * ln x - x - sln_gamma a) (- (70978271289338399 / 100000000000000))) as [U|U].
  - pose proof (sgamma_lr_under_acc k a x v F Ha Hx U HF E) as B. fold t in B.
    assert (V0 : 0 <= v).
    { unfold sgamma_lr in E. revert E. rb. rops. rewrite lit_R. repeat (rcase; try lra); intros E; apply Ret_inj in E; injection E as <-; lra. }
    assert (0 <= Rmax 1 x * v) by (apply Rmult_le_pos; lra). split; [exact V0|lra].
  - destruct (sgamma_lr_series_acc k a x v F Ha Hx Hxa ltac:(lra) HF E) as [V0 B]. split; [exact V0|lra].
Qed.
Lemma sgamma_lr_upper k a x v F : 0 < a -> 1 < x -> a < x -> is_gamma_lr a F -> sgamma_lr k a x = Ret (Some v) ->
  v <= 1 /\ Rabs (v - F x) <= 13 / 100000000000000 * (1 - v) + (1 + 3 / x) / 10 ^ 308.
Proof.
  intros Ha Hx Hxa HF E. assert (T : 0 < (1 + 3 / x) / 10 ^ 308).
  { apply Rdiv_lt_0_compat; [|apply pow_lt; lra]. assert (0 < 3 / x) by (apply Rdiv_lt_0_compat; lra). lra. }
  destruct (Rlt_dec (a * ln x - x - sln_gamma a) (- (70978271289338399 / 100000000000000))) as [U|U].
  - pose proof (sgamma_lr_under_acc k a x v F Ha ltac:(lra) U HF E) as B. rewrite Rmax_right in B by lra. set (t := (1 + 3 / x) / 10 ^ 308) in *.
    assert (V1 : v <= 1).
    { unfold sgamma_lr in E. revert E. rb. rops. rewrite lit_R. repeat (rcase; try lra); intros E; apply Ret_inj in E; injection E as <-; lra. }
    split; [exact V1|lra].
  - destruct (sgamma_lr_cf_acc k a x v F Ha Hx Hxa ltac:(lra) HF E) as [V1 B]. split; [exact V1|]. set (t := (1 + 3 / x) / 10 ^ 308) in *. lra.
Qed.

(** ** The error function *)
Lemma sgamma_half : exists d, sgamma (1 / 2) = Ret (sqrt PI * (1 + d)) /\ Rabs d <= 4 / 1000000000000.
Proof.
  pose proof euler_gamma_half as H. pose proof (lanczos_accuracy (1 / 2) (sqrt PI) ltac:(lra) H) as A.
  pose proof (euler_gamma_pos _ _ H) as P. exists (lanczos (1 / 2) / sqrt PI - 1). split.
  - rewrite sgamma_ge by lra. f_equal. field. lra.
  - replace (lanczos (1 / 2) / sqrt PI - 1) with ((lanczos (1 / 2) - sqrt PI) / sqrt PI) by (field; lra).
    unfold Rdiv at 1. rewrite Rabs_mult, (Rabs_pos_eq (/ _)) by (left; now apply Rinv_0_lt_compat).
    apply Rmult_le_reg_r with (sqrt PI); [assumption|]. rewrite Rmult_assoc, Rinv_l by lra. lra.
Qed.
Lemma serf_value k x v : 0 < x -> serf k x = Ret (Some v) -> exists p d, sgamma_lr k (1 / 2) (x * x) = Ret (Some p) /\ v = 1 - (1 - p) * (1 + d) /\ Rabs d <= 4 / 1000000000000.
Proof.
  intros Hx. destruct sgamma_half as (d & Ed & Hd). unfold serf, sgamma_u, sgamma_ur. rb. rops. rewrite lit_half', Ed. unfold R_eqb. destruct (Req_EM_T x 0); [lra|].
  destruct (sgamma_lr k (1 / 2) (x * x)) as [[p|]|]; cbn [obind olift]; try discriminate.
  intros E. apply Ret_inj in E. injection E as <-. exists p, d. split; [reflexivity|]. split; [|exact Hd].
  unfold fsign. rb. rops. repeat (rcase; try lra).
  pose proof (sqrt_lt_R0 PI PI_RGT_0). field. lra.
Qed.
Lemma erf_half_glr : is_gamma_lr (1 / 2) (fun y => erf_true (sqrt y)).
Proof. exact (glr_is _ _ _ glr_half). Qed.
Lemma tiny_308 y : 0 <= y <= 100 -> 0 <= y / 10 ^ 308 <= 1 / 10000000000000000000.
Proof.
  intros Hy. assert (T : 1 / 10 ^ 308 <= 1 / 10 ^ 21).
  { unfold Rdiv. apply Rmult_le_compat_l; [lra|]. apply Rinv_le_contravar; [apply pow_lt; lra|]. apply Rle_pow; [lra|lia]. }
  assert (T0 : 0 < 1 / 10 ^ 308) by (apply Rdiv_lt_0_compat; [lra|apply pow_lt; lra]).
  replace (y / 10 ^ 308) with (y * (1 / 10 ^ 308)) by (unfold Rdiv; ring). set (t := 1 / 10 ^ 308) in *. clearbody t. cbn [pow] in T. split; [apply Rmult_le_pos; lra|].
  assert (y * t <= 100 * t) by (apply Rmult_le_compat_r; lra). lra.
Qed.
Lemma erf_true_range x : 0 < x -> 0 < erf_true x <= 1.
Proof.
  intros Hx. split; [rewrite <- erf_true_0; apply erf_true_mono; lra|].
  assert (X0 : 0 < x * x) by (apply Rmult_lt_0_compat; lra).
  pose proof (glr_le_1 _ _ _ (x * x) X0 glr_half) as F1. cbv beta in F1. rewrite sqrt_square in F1 by lra. exact F1.
Qed.
Lemma serf_pos_acc k x v : 0 < x -> serf k x = Ret (Some v) -> Rabs (v - erf_true x) <= 5 / 1000000000000 /\
  (1 < x -> Rabs (v - erf_true x) <= 5 / 1000000000000 * (1 - erf_true x) + 4 / 10 ^ 308).
Proof.
  intros Hx E. destruct (serf_value k x v Hx E) as (p & d & Ep & -> & Hd). destruct (erf_true_range x Hx) as [F0 F1].
  assert (X0 : 0 < x * x) by (apply Rmult_lt_0_compat; lra). split.
  - pose proof (sgamma_lr_abs k (1 / 2) (x * x) p _ ltac:(lra) X0 erf_half_glr Ep) as B. cbv beta in B. rewrite sqrt_square in B by lra.
    assert (M1 : Rmax 1 (Rmin (1 / 2) (x * x)) = 1) by (apply Rmax_left; apply Rle_trans with (1 := Rmin_l _ _); lra). rewrite M1 in B.
    assert (Q : 1 / 2 <= Rmax (1 / 2) (x * x)) by apply Rmax_l.
    assert (T : 0 <= 1 + 3 / Rmax (1 / 2) (x * x) <= 100).
    { assert (0 < 3 / Rmax (1 / 2) (x * x)) by (apply Rdiv_lt_0_compat; lra). assert (3 / Rmax (1 / 2) (x * x) <= 6); [|lra].
      apply Rmult_le_reg_r with (Rmax (1 / 2) (x * x)); [lra|]. unfold Rdiv. rewrite Rmult_assoc, Rinv_l by lra. lra. }
    apply tiny_308 in T. set (t := (1 + 3 / Rmax (1 / 2) (x * x)) / 10 ^ 308) in *. clearbody t.
    set (F := erf_true x) in *. clearbody F. clear - B T F0 F1 Hd.
    assert (PR : - (1 / 1000) <= p <= 1 + 1 / 1000).
    { unfold Rmax in B. apply Rabs_le_between in B. destruct (Rle_dec 0 (1 - p)) in B; destruct (Rle_dec 0 p) in B; lra. }
    assert (B' : Rabs (p - F) <= 2 / 10000000000000).
    { unfold Rmax in B. destruct (Rle_dec 0 (1 - p)) in B; destruct (Rle_dec 0 p) in B; lra. }
    replace (1 - (1 - p) * (1 + d) - F) with ((p - F) + - ((1 - p) * d)) by ring.
    apply Rle_trans with (1 := Rabs_triang _ _). rewrite Rabs_Ropp, Rabs_mult.
    assert (Rabs (1 - p) <= 1002 / 1000) by (apply Rabs_le; lra).
    assert (Rabs (1 - p) * Rabs d <= 1002 / 1000 * (4 / 1000000000000)) by (apply Rmult_le_compat; try apply Rabs_pos; assumption). lra.
  - intros X1. assert (XX : 1 < x * x) by (assert (1 * x < x * x) by (apply Rmult_lt_compat_r; lra); lra).
    assert (T0 : 0 < 1 / 10 ^ 308) by (apply Rdiv_lt_0_compat; [lra|apply pow_lt; lra]).
    destruct (Rlt_dec (1 / 2 * ln (x * x) - x * x - sln_gamma (1 / 2)) (- (70978271289338399 / 100000000000000))) as [U|U].
    + pose proof (sgamma_lr_under_acc k (1 / 2) (x * x) p _ ltac:(lra) X0 U erf_half_glr Ep) as B. cbv beta in B. rewrite sqrt_square in B by lra.
      rewrite Rmax_right in B by lra.
      assert (P1 : p = 1).
      { unfold sgamma_lr in Ep. revert Ep. rb. rops. rewrite lit_R. repeat (rcase; try lra); intros Q; apply Ret_inj in Q; injection Q as <-; lra. }
      subst p. replace (1 - (1 - 1) * (1 + d) - erf_true x) with (1 - erf_true x) by ring. 
      apply Rle_trans with (1 := B). assert (3 / (x * x) <= 3).
      { apply Rmult_le_reg_r with (x * x); [lra|]. unfold Rdiv. rewrite Rmult_assoc, Rinv_l by lra. lra. }
      assert ((1 + 3 / (x * x)) / 10 ^ 308 <= 4 / 10 ^ 308) by (unfold Rdiv at 1 3; apply Rmult_le_compat_r; [left; apply Rinv_0_lt_compat, pow_lt; lra|lra]).
      lra.
    + destruct (sgamma_lr_cf_acc k (1 / 2) (x * x) p _ ltac:(lra) XX ltac:(lra) ltac:(lra) erf_half_glr Ep) as [P1 B]. cbv beta in B. rewrite sqrt_square in B by lra.
      replace (4 / 10 ^ 308) with (4 * (1 / 10 ^ 308)) by (unfold Rdiv; ring). set (t := 1 / 10 ^ 308) in *. clearbody t.
      set (F := erf_true x) in *. clearbody F. clear - B F0 F1 Hd P1 T0.
      replace (1 - (1 - p) * (1 + d) - F) with ((p - F) + - ((1 - p) * d)) by ring.
      apply Rle_trans with (1 := Rabs_triang _ _). rewrite Rabs_Ropp, Rabs_mult, (Rabs_pos_eq (1 - p)) by lra.
      assert ((1 - p) * Rabs d <= (1 - p) * (4 / 1000000000000)) by (apply Rmult_le_compat_l; lra).
      pose proof B as B'. apply Rabs_le_between in B'. lra.
Qed.
Theorem serf_accuracy k x v : serf k x = Ret (Some v) -> Rabs (v - erf_true x) <= 5 / 1000000000000 /\
  (1 < Rabs x -> Rabs (v - erf_true x) <= 5 / 1000000000000 * (1 - Rabs (erf_true x)) + 4 / 10 ^ 308).
Proof.
  intros E. destruct (Rtotal_order x 0) as [L|[->|L]].
  - apply serf_odd in E. pose proof (serf_pos_acc k (- x) (- v) ltac:(lra) E) as B. rewrite erf_true_odd in B.
    destruct (erf_true_range (- x) ltac:(lra)) as [F0 F1]. rewrite erf_true_odd in F0, F1.
    rewrite (Rabs_left x) by lra. rewrite (Rabs_left (erf_true x)) by lra.
    replace (- v - - erf_true x) with (- (v - erf_true x)) in B by ring. rewrite Rabs_Ropp in B. exact B.
  - rewrite serf_0 in E. apply Ret_inj in E. injection E as <-. rewrite erf_true_0, Rminus_diag_eq, Rabs_R0 by reflexivity. split; [lra|intros; lra].
  - pose proof (serf_pos_acc k x v L E) as B. destruct (erf_true_range x L) as [F0 F1]. rewrite (Rabs_pos_eq x), (Rabs_pos_eq (erf_true x)) by lra. exact B.
Qed.
Lemma serfc_accuracy k x v : serfc k x = Ret (Some v) -> Rabs (v - (1 - erf_true x)) <= 5 / 1000000000000.
Proof.
  intro E. destruct (serf k x) as [[u|]|] eqn:Eu.
  - rewrite (serfc_ok k x u Eu) in E. apply Ret_inj in E. injection E as <-. destruct (serf_accuracy k x u Eu) as [A _].
    replace (1 - u - (1 - erf_true x)) with (- (u - erf_true x)) by ring. now rewrite Rabs_Ropp.
  - unfold serfc in E. rewrite Eu in E. discriminate E.
  - unfold serfc in E. rewrite Eu in E. discriminate E.
Qed.
