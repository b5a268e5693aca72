(** The t statistics in binary64. *)
From Coq Require Import Arith Lia List Bool ZArith Reals Lra Psatz SpecFloat.
From Flocq Require Import Core IEEE754.BinarySingleNaN.
From Verif Require Import Outcome Scalar RealOps Elem_model Int_model Ode_model Special_model Stat_model Matrix_spec F64_spec F64Stat_spec F64Cplx_spec F64Norm_spec F64TTest_spec
  F64Flocq F64Err_proofs F64Sum_proofs F64Grid_proofs F64Euler_proofs F64NewtonEx_proofs F64Norm_proofs F64Var_proofs F64Libm_proofs F64Gamma_proofs F64Density_proofs F64Discrete_proofs.
Import ListNotations.
Local Open Scope R_scope.

Lemma tq_u : 0 < uro <= / 1000000 /\ 0 < eta64 <= uro.
Proof.
  split; [split; [apply uro_pos|rewrite uro_val; lra]|]. split; [apply eta64_pos|]. unfold eta64, uro. apply bpow_le. lia.
Qed.
(** Rounded quotient of p, within e of P, by s, within a fraction r of a positive number w. *)
Lemma quot_near (p s : f64) P w e r : fvalid p -> fvalid s -> ffin s = true -> ffin (div p s) = true -> 0 < w -> 0 <= e -> 0 <= r <= / 8 ->
  (ffin p = true -> Rabs (fval p - P) <= e) -> Rabs (fval s - w) <= r * w ->
  ffin p = true /\ Rabs (fval (div p s) - P / w) <= 2 * (e / w) + (2 * r + 2 * uro) * Rabs (P / w) + eta64.
Proof.
  intros Vp Vs Fs F W E0 Hr Hp Hs. destruct (fdiv_err p s Vp Vs Fs F) as (Fp & S0 & B & _). split; [exact Fp|]. specialize (Hp Fp). destruct tq_u as ((U0 & U1) & T0 & T1).
  apply Rabs_le_inv in Hs. assert (R8 : r * w <= / 8 * w) by (apply Rmult_le_compat_r; lra). assert (S1 : 7 / 8 * w <= fval s) by lra. set (s' := fval s) in *. set (p' := fval p) in *.
  set (X := e / w). set (Y := Rabs (P / w)). assert (X0 : 0 <= X) by (apply Rmult_le_pos; [exact E0|apply Rlt_le, Rinv_0_lt_compat, W]). pose proof (Rabs_pos (P / w)) as Y0. fold Y in Y0.
  assert (K : Rabs (p' / s' - P / w) <= 8 / 7 * (X + r * Y)).
  { apply Rmult_le_reg_r with s'; [lra|]. replace (Rabs (p' / s' - P / w) * s') with (Rabs (p' - P + P / w * (w - s'))).
    - apply Rle_trans with (e + Y * (r * w)).
      + eapply Rle_trans; [apply Rabs_triang|]. apply Rplus_le_compat; [exact Hp|]. rewrite Rabs_mult. apply Rmult_le_compat_l; [exact Y0|]. apply Rabs_le. lra.
      + replace (e + Y * (r * w)) with (8 / 7 * (X + r * Y) * (7 / 8 * w)) by (unfold X; field; lra). apply Rmult_le_compat_l; [|exact S1]. assert (0 <= r * Y) by (apply Rmult_le_pos; lra). lra.
    - transitivity (Rabs (p' / s' - P / w) * Rabs s'); [rewrite <- Rabs_mult; f_equal; field; lra|]. rewrite (Rabs_pos_eq s') by lra. reflexivity. }
  assert (RY : 0 <= r * Y) by (apply Rmult_le_pos; lra).
  assert (M : Rabs (p' / s') <= Y + 8 / 7 * (X + r * Y)). { pose proof (Rabs_triang_inv (p' / s') (P / w)) as Z. fold Y in Z. lra. }
  assert (N : uro * Rabs (p' / s') <= uro * Y + / 1000000 * (8 / 7 * (X + r * Y))).
  { apply Rle_trans with (uro * (Y + 8 / 7 * (X + r * Y))); [apply Rmult_le_compat_l; lra|]. rewrite Rmult_plus_distr_l. apply Rplus_le_compat_l. apply Rmult_le_compat_r; lra. }
  replace (fval (div p s) - P / w) with ((fval (div p s) - p' / s') + (p' / s' - P / w)) by ring. eapply Rle_trans; [apply Rabs_triang|].
  assert (0 <= uro * Y) by (apply Rmult_le_pos; lra). lra.
Qed.
(** Rounded square root of V, within a fraction r of W. *)
Lemma root_near sq j (V : f64) W r : root_acc j sq -> root_total sq -> gam j <= / 1000 -> fgood V -> 0 < W -> 0 <= r <= / 8 -> Rabs (fval V - W) <= r * W -> 
  fgood (sq V) /\ Rabs (fval (sq V) - sqrt W) <= (r + 2 * gam j) * sqrt W.
Proof.
  intros RA RT Hj (Vv & Fv) W0 Hr H. pose proof (gam_pos j) as U0. assert (P : 0 < fval V). { apply Rabs_le_inv in H. assert (r * W <= / 8 * W) by (apply Rmult_le_compat_r; lra). lra. }
  pose proof (RT V (conj Vv Fv) ltac:(lra)) as Fs. destruct (RA V Vv) as (Vs & B). destruct (B Fs) as (_ & _ & C). clear B. split; [split; assumption|].
  pose proof (sqrt_lt_R0 W W0) as Q. pose proof (sqrt_pos (fval V)) as Q2.
  assert (D : Rabs (sqrt (fval V) - sqrt W) <= r * sqrt W).
  { apply Rmult_le_reg_r with (sqrt W); [exact Q|]. replace (r * sqrt W * sqrt W) with (r * W) by (rewrite Rmult_assoc, sqrt_sqrt by lra; reflexivity).
    eapply Rle_trans; [|exact H]. replace (fval V - W) with ((sqrt (fval V) - sqrt W) * (sqrt (fval V) + sqrt W)).
    - rewrite Rabs_mult. apply Rmult_le_compat_l; [apply Rabs_pos|]. rewrite Rabs_pos_eq; lra.
    - replace ((sqrt (fval V) - sqrt W) * (sqrt (fval V) + sqrt W)) with (sqrt (fval V) * sqrt (fval V) - sqrt W * sqrt W) by ring. rewrite !sqrt_sqrt by lra. reflexivity. }
  apply Rabs_le_inv in D. assert (RW : r * sqrt W <= / 8 * sqrt W) by (apply Rmult_le_compat_r; lra).
  assert (gam j * sqrt (fval V) <= gam j * (2 * sqrt W)) by (apply Rmult_le_compat_l; lra). apply Rabs_le. apply Rabs_le_inv in C. lra.
Qed.
Lemma from_data_valid pw k (l : list f64) d : square_acc k (fun x => pw x (lit 2 1)) -> (Z.of_nat (length l) <= 2 ^ 53)%Z -> Forall fvalid l ->
  @normal_from_data f64 F64_ops (F64_pops pw) F64_zops l = Ret d -> fvalid (no_mean d) /\ fvalid (no_var d).
Proof.
  intros Sq Hb Vl H. unfold normal_from_data in H. destruct (length l <? 2)%nat eqn:H2; [discriminate|]. apply Nat.ltb_ge in H2.
  cbv zeta in H. unfold normal_new in H. destruct (leb _ zero) eqn:LE in H; [discriminate|]. injection H as <-. cbn [no_var no_mean] in *.
  set (m := calc_mean l) in *.
  assert (Vm : fvalid m). { unfold m, calc_mean. rewrite fold_sumn. destruct (of_u_ok (length l) Hb) as (? & ? & ?). apply fvalid_div; [|assumption]. apply fsum_valid. intros i Hi. rewrite Forall_forall in Vl. apply Vl, nth_In, Hi. }
  split; [exact Vm|]. change (fvalid (div (fold_left (fun s x => add s (pw (sub x m) (lit 2 1))) l zero) (of_u (length l - 1)))). pose proof (fold_sumn_map (fun y => pw (sub y m) (lit 2 1)) l) as FS. cbv beta in FS. rewrite FS. destruct (of_u_ok (length l - 1) ltac:(lia)) as (? & ? & ?).
  apply fvalid_div; [|assumption]. apply fsum_valid. intros i Hi. refine (proj1 (Sq _ _)). apply fvalid_sub; [|exact Vm]. rewrite Forall_forall in Vl. apply Vl, nth_In, Hi.
Qed.

Lemma var_nonneg (x : list R) : 0 <= unbiased_variance x.
Proof.
  unfold unbiased_variance. assert (T : forall l a, 0 <= total (map (fun x => (x - a) ^ 2) l)). { intros l a. induction l as [|b l IH]; [cbn; lra|]. cbn [map total]. pose proof (pow2_ge_0 (b - a)). lra. }
  destruct (length x - 1)%nat as [|n] eqn:N; [cbn [INR]; unfold Rdiv; rewrite Rinv_0; lra|]. apply Rmult_le_pos; [apply T|]. apply Rlt_le, Rinv_0_lt_compat, lt_0_INR. lia.
Qed.
Lemma avg_abs_nonneg (x : list R) : 0 <= average_abs x.
Proof.
  unfold average_abs, average. assert (T : forall l, 0 <= total (map Rabs l)). { induction l as [|b l IH]; [cbn; lra|]. cbn [map total]. pose proof (Rabs_pos b). lra. }
  destruct (length (map Rabs x)) as [|n] eqn:N; [cbn [INR]; unfold Rdiv; rewrite Rinv_0; lra|]. apply Rmult_le_pos; [apply T|]. apply Rlt_le, Rinv_0_lt_compat, lt_0_INR. lia.
Qed.
Lemma mean_error_pos x : 0 < mean_error x.
Proof. unfold mean_error. destruct tq_u as (_ & T & _). pose proof (Rmult_le_pos _ _ (gam_pos (length x)) (avg_abs_nonneg x)). lra. Qed.
Lemma var_error_pos k x : 0 < var_error k x.
Proof.
  unfold var_error. destruct tq_u as (_ & T & _). pose proof (gam_pos (length x + k + 2)) as G. pose proof (gam_pos (length x)) as G2. pose proof (Rmult_le_pos _ _ G (var_nonneg x)). pose proof (pow2_ge_0 (mean_error x)) as Q.
  assert (0 <= (1 + gam (length x + k + 2)) * (2 * mean_error x ^ 2)) by (apply Rmult_le_pos; lra). assert (0 <= eta64 * gam (length x)) by (apply Rmult_le_pos; lra). lra.
Qed.
Lemma var_pos k x r : var_error k x <= r * unbiased_variance x -> 0 < unbiased_variance x /\ 0 < r.
Proof.
  intros H. pose proof (var_error_pos k x). destruct (Rle_lt_or_eq_dec _ _ (var_nonneg x)) as [P|E]; [|rewrite <- E, Rmult_0_r in H; lra].
  split; [exact P|]. destruct (Rlt_dec 0 r) as [|n]; [assumption|exfalso]. assert (r * unbiased_variance x <= 0 * unbiased_variance x) by (apply Rmult_le_compat_r; lra). lra.
Qed.
Theorem one_sample_f64 pw k j (l : list f64) mu d t r : square_acc k (fun x => pw x (lit 2 1)) -> root_acc j (fun x => pw x (@half f64 (F64_pops pw))) -> root_total (fun x => pw x (@half f64 (F64_pops pw))) -> gam j <= / 1000 -> (Z.of_nat (length l) <= 2 ^ 53)%Z -> Forall fvalid l -> fvalid mu ->
  @normal_from_data f64 F64_ops (F64_pops pw) F64_zops l = Ret d -> ffin (no_var d) = true ->
  @t_one_sample f64 F64_ops (F64_pops pw) F64_zops l mu = Ret t -> ffin (tt_t t) = true ->
  let x := map fval l in var_error k x <= r * unbiased_variance x -> r <= / 10 ->
  let w := sqrt (unbiased_variance x) in let T := student_t x (fval mu) in
  ffin mu = true /\ 0 < w /\ Rabs (fval (tt_t t) - T) <= 3 * (sqrt (INR (length l)) * mean_error x / w) + (2 * r + 10 * (uro + gam j)) * Rabs T + (2 / w + 1) * eta64.
Proof.
  intros Sq RA RT Hj Hb Vl Vmu Hd Fv Ht Ft x Hr R1 w T. pose proof (gam_pos j) as J0. destruct (from_data_valid pw k l d Sq Hb Vl Hd) as (Vm & Vv). destruct (from_data pw k l d Sq Hb Vl Hd Fv) as (N2 & Fl & Fm & V0 & M & V).
  destruct (var_pos _ _ _ Hr) as (S0 & r0). unfold t_one_sample in Ht. rewrite Hd in Ht. cbn [bind] in Ht. injection Ht as <-. cbn [tt_t] in *. unfold normal_variance, normal_mean in *.
  assert (Lx : length x = length l) by (unfold x; apply map_length). assert (ME : mean_error x = gam (length l) * average_abs x + eta64) by (unfold mean_error; rewrite Lx; reflexivity). fold x in M. rewrite <- ME in M.
  assert (V' : Rabs (fval (no_var d) - unbiased_variance x) <= r * unbiased_variance x). { eapply Rle_trans; [|exact Hr]. unfold var_error. rewrite ME, Lx. exact V. } clear V.
  destruct tq_u as ((U0 & U1) & T0 & T1). destruct (of_u_ok (length l) Hb) as (Vn & Fn & En). assert (n0 : 2 <= INR (length l)) by (apply (le_INR 2); exact N2).
  set (sq := fun x : f64 => pw x (@half f64 (F64_pops pw))) in *. change (ffin (div (mul (sq (of_u (length l))) (sub (no_mean d) mu)) (sq (no_var d))) = true) in Ft.
  change (@tsqrt f64 (F64_pops pw)) with sq.
  destruct (root_near sq j (no_var d) (unbiased_variance x) r RA RT Hj (conj Vv Fv) S0 ltac:(lra) V') as ((Vs & Fs) & Es). fold w in Es.
  destruct (root_near sq j (of_u (length l)) (INR (length l)) 0 RA RT Hj (conj Vn Fn) ltac:(lra) ltac:(lra)) as ((Vr & Fr) & Er); [rewrite En, Rmult_0_l, Rminus_eq_0, Rabs_R0; lra|].
  set (s := sq (no_var d)) in *. set (rn := sq (of_u (length l))) in *. set (N := sqrt (INR (length l))) in *. set (D := mean_error x) in *. set (A := average x) in *. pose proof (mean_error_pos x) as D0. fold D in D0.
  assert (N0 : 0 < N) by (apply sqrt_lt_R0; lra). assert (w0 : 0 < w) by (apply sqrt_lt_R0; exact S0).
  set (G := Rabs (A - fval mu) + D). assert (G0 : 0 < G) by (pose proof (Rabs_pos (A - fval mu)); unfold G; lra). assert (NG : 0 <= N * G) by (apply Rmult_le_pos; lra).
  set (e := N * D + 3 * (uro + gam j) * (N * G) + eta64).
  assert (Vd : fvalid (sub (no_mean d) mu)) by (apply fvalid_sub; assumption).
  assert (P : ffin (mul rn (sub (no_mean d) mu)) = true -> ffin mu = true /\ Rabs (fval (mul rn (sub (no_mean d) mu)) - N * (A - fval mu)) <= e).
  { intro Fp. destruct (fmul_err rn _ Vr Vd Fp) as (_ & Fd & B1 & _). destruct (fsub_err _ _ Vm Vmu Fd) as (_ & Fmu & B2 & _). split; [exact Fmu|].
    set (p := fval (mul rn (sub (no_mean d) mu))) in *. set (dd := fval (sub (no_mean d) mu)) in *. set (q := fval (no_mean d) - fval mu) in *. set (rr := fval rn) in *.
    assert (Q : Rabs (q - (A - fval mu)) <= D) by (unfold q; replace (fval (no_mean d) - fval mu - (A - fval mu)) with (fval (no_mean d) - A) by ring; exact M).
    assert (Qg : Rabs q <= G) by (unfold G; pose proof (Rabs_triang_inv q (A - fval mu)); lra).
    assert (Dg : Rabs (dd - q) <= uro * G) by (eapply Rle_trans; [exact B2|]; apply Rmult_le_compat_l; lra).
    assert (uG : uro * G <= / 1000000 * G) by (apply Rmult_le_compat_r; lra).
    assert (Dd : Rabs dd <= 101 / 100 * G) by (pose proof (Rabs_triang_inv dd q); lra).
    assert (Er' : Rabs (rr - N) <= 2 * (gam j * N)) by (eapply Rle_trans; [exact Er|apply Req_le; ring]). assert (uN : gam j * N <= / 1000 * N) by (apply Rmult_le_compat_r; lra).
    assert (Rr : Rabs rr <= 101 / 100 * N) by (pose proof (Rabs_triang_inv rr N); rewrite (Rabs_pos_eq N) in * by lra; lra).
    assert (K1 : Rabs (rr * dd) <= 101 / 100 * N * (101 / 100 * G)) by (rewrite Rabs_mult; apply Rmult_le_compat; [apply Rabs_pos|apply Rabs_pos|exact Rr|exact Dd]).
    assert (K2 : Rabs ((rr - N) * dd) <= 2 * (gam j * N) * (101 / 100 * G)) by (rewrite Rabs_mult; apply Rmult_le_compat; [apply Rabs_pos|apply Rabs_pos|exact Er'|exact Dd]).
    assert (K3 : Rabs (N * (dd - q)) <= N * (uro * G)) by (rewrite Rabs_mult, (Rabs_pos_eq N) by lra; apply Rmult_le_compat_l; lra).
    assert (K4 : Rabs (N * (q - (A - fval mu))) <= N * D) by (rewrite Rabs_mult, (Rabs_pos_eq N) by lra; apply Rmult_le_compat_l; lra).
    assert (K5 : uro * Rabs (rr * dd) <= uro * (101 / 100 * N * (101 / 100 * G))) by (apply Rmult_le_compat_l; lra).
    replace (p - N * (A - fval mu)) with ((p - rr * dd) + ((rr - N) * dd + (N * (dd - q) + N * (q - (A - fval mu))))) by ring.
    eapply Rle_trans; [apply Rabs_triang|]. pose proof (Rabs_triang ((rr - N) * dd) (N * (dd - q) + N * (q - (A - fval mu)))). pose proof (Rabs_triang (N * (dd - q)) (N * (q - (A - fval mu)))).
    assert (0 <= uro * (N * G)) by (apply Rmult_le_pos; lra); assert (0 <= gam j * (N * G)) by (apply Rmult_le_pos; lra). unfold e. assert (B1' : Rabs (p - rr * dd) <= uro * Rabs (rr * dd) + eta64) by exact B1. lra. }
  assert (e0 : 0 <= e) by (unfold e; assert (0 <= N * D) by (apply Rmult_le_pos; lra); assert (0 <= uro * (N * G)) by (apply Rmult_le_pos; lra); assert (0 <= gam j * (N * G)) by (apply Rmult_le_pos; lra); lra).
  assert (Ft' : ffin (div (mul rn (sub (no_mean d) mu)) s) = true) by exact Ft. clear Ft.
  destruct (quot_near (mul rn (sub (no_mean d) mu)) s (N * (A - fval mu)) w e (r + 2 * gam j)) as (Fp & B); try assumption; try lra; try (apply fvalid_mul; assumption); try (intro Fp; apply (P Fp)).
  split; [apply (P Fp)|]. split; [exact w0|]. assert (ET : N * (A - fval mu) / w = T) by (unfold T, student_t; rewrite Lx; reflexivity). rewrite ET in B. eapply Rle_trans; [exact B|].
  assert (X : e / w = N * D / w + 3 * (uro + gam j) * (N * D / w) + 3 * (uro + gam j) * Rabs T + eta64 / w).
  { assert (AT : Rabs T = N * Rabs (A - fval mu) / w). { rewrite <- ET. unfold Rdiv. rewrite !Rabs_mult, (Rabs_pos_eq N) by lra. rewrite (Rabs_pos_eq (/ w)) by (apply Rlt_le, Rinv_0_lt_compat; lra). reflexivity. }
    rewrite AT. unfold e, G. field. lra. }
  rewrite X. set (Y := N * D / w). assert (Y0 : 0 <= Y) by (apply Rmult_le_pos; [apply Rmult_le_pos; lra|apply Rlt_le, Rinv_0_lt_compat, w0]). assert (uY : uro * Y <= / 1000000 * Y) by (apply Rmult_le_compat_r; lra). assert (gY : gam j * Y <= / 1000 * Y) by (apply Rmult_le_compat_r; lra).
  replace ((2 / w + 1) * eta64) with (2 * (eta64 / w) + eta64) by (field; lra). pose proof (Rabs_pos T). assert (0 <= uro * Rabs T) by (apply Rmult_le_pos; lra). assert (0 <= gam j * Rabs T) by (apply Rmult_le_pos; lra). lra.
Qed.

(** * Two samples *)
Lemma root_fnear sq j y c Y : root_acc j sq -> root_total sq -> gam j <= / 1000 -> fnear c y Y -> 0 <= c -> fnear (102 / 100 * gam j + c) (sq y) (sqrt Y).
Proof.
  intros RA RT Hj (G & N) Hc. pose proof (near_pos _ _ _ N) as (y0 & Y0). destruct G as (V & F). destruct (RA y V) as (Vs & B). pose proof (RT y (conj V F) ltac:(lra)) as Fs. destruct (B Fs) as (_ & _ & C).
  split; [split; assumption|]. pose proof (gam_pos j) as J0. pose proof (sqrt_lt_R0 _ y0) as q0. pose proof (sqrt_lt_R0 _ Y0) as Q0.
  apply near_trans with (sqrt (fval y)); [apply near_rel; lra|]. destruct N as (_ & A1 & A2). split; [exact Q0|].
  pose proof (exp_pos c) as E1. pose proof (exp_pos (- c)) as E2. assert (E3 : 1 <= exp c) by (pose proof (exp_ineq1_le c); lra). assert (E4 : exp (- c) <= 1) by (rewrite <- exp_0; apply exp_mono; lra).
  assert (SS : sqrt Y * sqrt Y = Y) by (apply sqrt_sqrt; lra). split.
  - rewrite <- (sqrt_square (exp (- c) * sqrt Y)) by (apply Rmult_le_pos; lra). apply sqrt_le_1_alt. apply Rle_trans with (exp (- c) * Y); [|exact A1].
    replace (exp (- c) * sqrt Y * (exp (- c) * sqrt Y)) with (exp (- c) * (exp (- c) * (sqrt Y * sqrt Y))) by ring. rewrite SS. apply Rmult_le_compat_l; [lra|]. rewrite <- (Rmult_1_l Y) at 2. apply Rmult_le_compat_r; lra.
  - rewrite <- (sqrt_square (exp c * sqrt Y)) by (apply Rmult_le_pos; lra). apply sqrt_le_1_alt. apply Rle_trans with (exp c * Y); [exact A2|].
    replace (exp c * sqrt Y * (exp c * sqrt Y)) with (exp c * (exp c * (sqrt Y * sqrt Y))) by ring. rewrite SS. apply Rmult_le_compat_l; [lra|]. rewrite <- (Rmult_1_l Y) at 1. apply Rmult_le_compat_r; lra.
Qed.
Lemma sample_facts pw k (l : list f64) d r : square_acc k (fun x => pw x (lit 2 1)) -> (Z.of_nat (length l) <= 2 ^ 53)%Z -> Forall fvalid l ->
  @normal_from_data f64 F64_ops (F64_pops pw) F64_zops l = Ret d -> ffin (no_var d) = true -> let x := map fval l in var_error k x <= r * unbiased_variance x -> r <= / 200 ->
  length x = length l /\ (2 <= length l)%nat /\ fgood (no_mean d) /\ Rabs (fval (no_mean d) - average x) <= mean_error x /\ 0 < r /\ fnear (102 / 100 * r) (no_var d) (unbiased_variance x).
Proof.
  intros Sq Hb Vl Hd Fv x Hr R1. destruct (from_data_valid pw k l d Sq Hb Vl Hd) as (Vm & Vv). destruct (from_data pw k l d Sq Hb Vl Hd Fv) as (N2 & Fl & Fm & V0 & M & V).
  destruct (var_pos _ _ _ Hr) as (S0 & r0). assert (Lx : length x = length l) by (unfold x; apply map_length). assert (ME : mean_error x = gam (length l) * average_abs x + eta64) by (unfold mean_error; rewrite Lx; reflexivity). fold x in M. rewrite <- ME in M.
  split; [exact Lx|]. split; [exact N2|]. split; [split; assumption|]. split; [exact M|]. split; [exact r0|]. split; [split; assumption|]. apply near_rel; [lra|exact S0|]. eapply Rle_trans; [|exact Hr]. unfold var_error. rewrite ME, Lx. exact V.
Qed.
(** The difference of two computed means over a scale. *)
Lemma diff_quot (m1 m2 s : f64) A1 A2 D1 D2 w c : fgood m1 -> fgood m2 -> Rabs (fval m1 - A1) <= D1 -> Rabs (fval m2 - A2) <= D2 -> fnear c s w -> 0 <= c <= / 100 -> ffin (div (sub m1 m2) s) = true ->
  Rabs (fval (div (sub m1 m2) s) - (A1 - A2) / w) <= 3 * ((D1 + D2) / w) + (21 / 10 * c + 4 * uro) * Rabs ((A1 - A2) / w) + eta64.
Proof.
  intros (V1 & F1) (V2 & F2) H1 H2 ((Vs & Fs) & N) Hc F. destruct (near_pos _ _ _ N) as (_ & W). destruct tq_u as ((U0 & U1) & T0 & T1). pose proof (rel_near c _ _ Hc N) as R1.
  pose proof (Rabs_pos (fval m1 - A1)). pose proof (Rabs_pos (fval m2 - A2)). set (DD := D1 + D2). assert (DD0 : 0 <= DD) by (unfold DD; lra). set (G := Rabs (A1 - A2)). assert (G0 : 0 <= G) by apply Rabs_pos.
  assert (uD : 0 <= uro * DD <= / 1000000 * DD) by (split; [apply Rmult_le_pos; lra|apply Rmult_le_compat_r; lra]). assert (uG : 0 <= uro * G) by (apply Rmult_le_pos; lra).
  set (e := DD + uro * (G + DD)). assert (e0 : 0 <= e) by (unfold e; lra).
  assert (P : ffin (sub m1 m2) = true -> Rabs (fval (sub m1 m2) - (A1 - A2)) <= e).
  { intro Fd. destruct (fsub_err _ _ V1 V2 Fd) as (_ & _ & B & _). assert (Q : Rabs (fval m1 - fval m2 - (A1 - A2)) <= DD).
    { replace (fval m1 - fval m2 - (A1 - A2)) with ((fval m1 - A1) + - (fval m2 - A2)) by ring. eapply Rle_trans; [apply Rabs_triang|]. rewrite Rabs_Ropp. unfold DD. lra. }
    assert (Q2 : Rabs (fval m1 - fval m2) <= G + DD) by (pose proof (Rabs_triang_inv (fval m1 - fval m2) (A1 - A2)); unfold G; lra).
    assert (uro * Rabs (fval m1 - fval m2) <= uro * (G + DD)) by (apply Rmult_le_compat_l; lra).
    replace (fval (sub m1 m2) - (A1 - A2)) with ((fval (sub m1 m2) - (fval m1 - fval m2)) + (fval m1 - fval m2 - (A1 - A2))) by ring. eapply Rle_trans; [apply Rabs_triang|]. unfold e. lra. }
  destruct (quot_near (sub m1 m2) s (A1 - A2) w e (102 / 100 * c)) as (_ & B); try assumption; try lra; [apply fvalid_sub; assumption|]. eapply Rle_trans; [exact B|].
  assert (X : e / w = DD / w + uro * (DD / w) + uro * Rabs ((A1 - A2) / w)).
  { assert (AT : Rabs ((A1 - A2) / w) = G / w). { unfold Rdiv. rewrite Rabs_mult, (Rabs_pos_eq (/ w)) by (apply Rlt_le, Rinv_0_lt_compat; lra). reflexivity. } rewrite AT. unfold e. field. lra. }
  rewrite X. set (Y := DD / w). assert (Y0 : 0 <= Y) by (apply Rmult_le_pos; [lra|apply Rlt_le, Rinv_0_lt_compat, W]). assert (uY : uro * Y <= / 1000000 * Y) by (apply Rmult_le_compat_r; lra).
  pose proof (Rabs_pos ((A1 - A2) / w)) as T2. set (TT := Rabs ((A1 - A2) / w)) in *. assert (0 <= uro * TT) by (apply Rmult_le_pos; lra). assert (0 <= c * TT) by (apply Rmult_le_pos; lra). lra.
Qed.
Lemma int_near n : (1 <= n)%nat -> (Z.of_nat n <= 2 ^ 53)%Z -> fnear 0 (of_u n : f64) (INR n) /\ 1 <= INR n <= bpow radix2 53.
Proof.
  intros H1 H2. destruct (of_u_ok n H2) as (V & F & E). assert (1 <= INR n) by (apply (le_INR 1); exact H1). split; [rewrite <- E; apply exact_near; [split; assumption|lra]|]. split; [assumption|]. rewrite INR_IZR_INZ. change (bpow radix2 53) with (IZR (2 ^ 53)). now apply IZR_le.
Qed.
Lemma div_range v n : bpow radix2 (-900) <= v <= bpow radix2 900 -> 1 <= n <= bpow radix2 53 -> bpow radix2 (-953) <= v / n <= bpow radix2 900.
Proof.
  intros (A & B) (C & D). pose proof (bpow_gt_0 radix2 (-900)) as P. split.
  - change (-953)%Z with (-900 + -53)%Z. rewrite bpow_plus. apply Rmult_le_compat; [lra|apply bpow_ge_0|exact A|]. change (-53)%Z with (- (53))%Z. rewrite bpow_opp. apply Rinv_le_contravar; lra.
  - apply Rle_trans with (v * 1); [|lra]. apply Rmult_le_compat_l; [lra|]. rewrite <- Rinv_1. apply Rinv_le_contravar; lra.
Qed.
Section Two.
Context (pw : f64 -> f64 -> f64) (k j : nat).
Hypothesis Sq : square_acc k (fun x => pw x (lit 2 1)).
Hypothesis RA : root_acc j (fun x => pw x (@half f64 (F64_pops pw))).
Hypothesis RT : root_total (fun x => pw x (@half f64 (F64_pops pw))).
Hypothesis Hj : gam j <= / 1000.
Theorem welch_f64 (l m : list f64) dx dy t r : (Z.of_nat (length l) <= 2 ^ 53)%Z -> (Z.of_nat (length m) <= 2 ^ 53)%Z -> Forall fvalid l -> Forall fvalid m ->
  @normal_from_data f64 F64_ops (F64_pops pw) F64_zops l = Ret dx -> ffin (no_var dx) = true -> @normal_from_data f64 F64_ops (F64_pops pw) F64_zops m = Ret dy -> ffin (no_var dy) = true ->
  forall (E : EOps f64) (Sp : Special f64), @t_unequal_variance f64 F64_ops (F64_pops pw) E F64_zops Sp l m = Ret t -> ffin (tt_t t) = true ->
  let x := map fval l in let y := map fval m in sample_ok k r x -> sample_ok k r y -> r <= / 200 ->
  let T := welch_stat x y in
  Rabs (fval (tt_t t) - T) <= 3 * ((mean_error x + mean_error y) / sqrt (welch_var x y)) + (3 * r + 10 * (uro + gam j)) * Rabs T + eta64.
Proof.
  intros Hl Hm Vl Vm Hx Fx Hy Fy E Sp Ht Ft x y (Rx & Ex) (Ry & Ey) R1 T. pose proof (gam_pos j) as J0. destruct tq_u as ((U0 & U1) & T0 & T1).
  destruct (sample_facts pw k l dx r Sq Hl Vl Hx Fx Ex R1) as (Lx & Nx & Gx & Mx & r0 & Sx). destruct (sample_facts pw k m dy r Sq Hm Vm Hy Fy Ey R1) as (Ly & Ny & Gy & My & _ & Sy). fold x in Lx, Mx, Sx. fold y in Ly, My, Sy.
  unfold t_unequal_variance in Ht. rewrite Hx, Hy in Ht. cbn [bind] in Ht. destruct (td_new _) as [td|] in Ht; [|discriminate]. cbn [bind] in Ht. destruct (td_cdf _ _) as [c|] in Ht; [|discriminate]. cbn [bind] in Ht. injection Ht as <-. cbn [tt_t] in Ft |- *. unfold normal_variance, normal_mean in *.
  set (sq := fun x : f64 => pw x (@half f64 (F64_pops pw))) in *.
  set (tm := add (div (no_var dx) (of_u (length l))) (div (no_var dy) (of_u (length m))) : f64).
  change (ffin (div (sub (no_mean dx) (no_mean dy)) (sq tm)) = true) in Ft. change (Rabs (fval (div (sub (no_mean dx) (no_mean dy)) (sq tm)) - T) <= 3 * ((mean_error x + mean_error y) / sqrt (welch_var x y)) + (3 * r + 10 * (uro + gam j)) * Rabs T + eta64).
  destruct (int_near (length l) ltac:(lia) Hl) as (Il & Rl). destruct (int_near (length m) ltac:(lia) Hm) as (Im & Rm).
  pose proof (div_range _ _ Rx Rl) as Q1. pose proof (div_range _ _ Ry Rm) as Q2.
  assert (B : bpow radix2 (-999) <= bpow radix2 (-953) /\ bpow radix2 900 <= bpow radix2 1020 /\ bpow radix2 1022 = 4 * bpow radix2 1020) by (split; [apply bpow_le; lia|split; [apply bpow_le; lia|change 1022%Z with (2 + 1020)%Z; rewrite bpow_plus; reflexivity]]). destruct B as (B1 & B2 & B3).
  pose proof (bpow_gt_0 radix2 (-953)) as B4.
  assert (N1 := fnear_div _ _ _ _ _ _ Sx Il ltac:(lra) ltac:(lra) ltac:(lra) ltac:(lra)). assert (N2 := fnear_div _ _ _ _ _ _ Sy Im ltac:(lra) ltac:(lra) ltac:(lra) ltac:(lra)).
  assert (N3 := fnear_add _ _ _ _ _ N1 N2 ltac:(lra) ltac:(lra)). fold tm in N3. assert (N4 := root_fnear sq j _ _ _ RA RT Hj N3 ltac:(lra)).
  assert (EW : unbiased_variance x / INR (length l) + unbiased_variance y / INR (length m) = welch_var x y) by (unfold welch_var; rewrite Lx, Ly; reflexivity). rewrite EW in N4.
  pose proof (diff_quot _ _ _ _ _ _ _ _ _ Gx Gy Mx My N4 ltac:(lra) Ft) as K. change ((average x - average y) / sqrt (welch_var x y)) with T in K. eapply Rle_trans; [exact K|].
  pose proof (Rabs_pos T) as TP. assert (0 <= uro * Rabs T) by (apply Rmult_le_pos; lra). assert (0 <= gam j * Rabs T) by (apply Rmult_le_pos; lra). assert (0 <= r * Rabs T) by (apply Rmult_le_pos; lra). lra.
Qed.
Theorem pooled_f64 (l m : list f64) dx dy t r : (Z.of_nat (length l + length m) <= 2 ^ 53)%Z -> Forall fvalid l -> Forall fvalid m ->
  @normal_from_data f64 F64_ops (F64_pops pw) F64_zops l = Ret dx -> ffin (no_var dx) = true -> @normal_from_data f64 F64_ops (F64_pops pw) F64_zops m = Ret dy -> ffin (no_var dy) = true ->
  @t_equal_variance f64 F64_ops (F64_pops pw) F64_zops l m = Ret t -> ffin (tt_t t) = true ->
  let x := map fval l in let y := map fval m in sample_ok k r x -> sample_ok k r y -> r <= / 200 ->
  let T := pooled_stat x y in
  Rabs (fval (tt_t t) - T) <= 3 * ((mean_error x + mean_error y) / pooled_scale x y) + (3 * r + 20 * (uro + gam j)) * Rabs T + eta64.
Proof.
  intros Hlm Vl Vm Hx Fx Hy Fy Ht Ft x y (Rx & Ex) (Ry & Ey) R1 T. pose proof (gam_pos j) as J0. destruct tq_u as ((U0 & U1) & T0 & T1). assert (Hl : (Z.of_nat (length l) <= 2 ^ 53)%Z) by lia. assert (Hm : (Z.of_nat (length m) <= 2 ^ 53)%Z) by lia.
  destruct (sample_facts pw k l dx r Sq Hl Vl Hx Fx Ex R1) as (Lx & Nx & Gx & Mx & r0 & Sx). destruct (sample_facts pw k m dy r Sq Hm Vm Hy Fy Ey R1) as (Ly & Ny & Gy & My & _ & Sy). fold x in Lx, Mx, Sx. fold y in Ly, My, Sy.
  unfold t_equal_variance in Ht. rewrite Hx, Hy in Ht. cbn [bind] in Ht. rewrite usub_ok in Ht by lia. cbn [bind] in Ht. injection Ht as <-. cbn [tt_t] in Ft |- *. unfold normal_variance, normal_mean in *.
  set (sq := fun x : f64 => pw x (@half f64 (F64_pops pw))) in *.
  set (nm := add (mul (of_u (length l - 1)) (no_var dx)) (mul (of_u (length m - 1)) (no_var dy)) : f64). set (pv := div nm (of_u (length l + length m - 2)) : f64). set (hn := add (div one (of_u (length l))) (div one (of_u (length m))) : f64).
  change (ffin (div (sub (no_mean dx) (no_mean dy)) (mul (sq pv) (sq hn))) = true) in Ft. change (Rabs (fval (div (sub (no_mean dx) (no_mean dy)) (mul (sq pv) (sq hn))) - T) <= 3 * ((mean_error x + mean_error y) / pooled_scale x y) + (3 * r + 20 * (uro + gam j)) * Rabs T + eta64).
  destruct (int_near (length l) ltac:(lia) Hl) as (Il & Rl). destruct (int_near (length m) ltac:(lia) Hm) as (Im & Rm). destruct (int_near (length l - 1) ltac:(lia) ltac:(lia)) as (Il1 & Rl1). destruct (int_near (length m - 1) ltac:(lia) ltac:(lia)) as (Im1 & Rm1). destruct (int_near (length l + length m - 2) ltac:(lia) ltac:(lia)) as (Id & Rd).
  assert (I1 : fnear 0 (one : f64) 1) by (rewrite <- fval_one; apply exact_near; [split; reflexivity|rewrite fval_one; lra]).
  set (a1 := INR (length l - 1)) in *. set (a2 := INR (length m - 1)) in *. set (n1 := INR (length l)) in *. set (n2 := INR (length m)) in *. set (df := INR (length l + length m - 2)) in *. set (S1 := unbiased_variance x) in *. set (S2 := unbiased_variance y) in *.
  pose proof (bpow_gt_0 radix2 (-900)) as B0. pose proof (bpow_gt_0 radix2 (-999)) as B9.
  assert (MR : forall n v, 1 <= n <= bpow radix2 53 -> bpow radix2 (-900) <= v <= bpow radix2 900 -> bpow radix2 (-900) <= n * v <= bpow radix2 953).
  { intros n v (C & D) (A & B). split; [apply Rle_trans with (1 * v); [lra|apply Rmult_le_compat_r; lra]|]. change 953%Z with (53 + 900)%Z. rewrite bpow_plus. apply Rmult_le_compat; lra. }
  pose proof (MR a1 S1 Rl1 Rx) as Q1. pose proof (MR a2 S2 Rm1 Ry) as Q2. set (num := a1 * S1 + a2 * S2).
  assert (B1 : bpow radix2 (-999) <= bpow radix2 (-953)) by (apply bpow_le; lia). assert (B2 : bpow radix2 (-953) <= bpow radix2 (-900)) by (apply bpow_le; lia). assert (B3 : bpow radix2 954 = 2 * bpow radix2 953) by (change 954%Z with (1 + 953)%Z; rewrite bpow_plus; reflexivity). assert (B4 : bpow radix2 954 <= bpow radix2 1022) by (apply bpow_le; lia).
  pose proof (bpow_gt_0 radix2 (-953)) as B5.
  assert (QN : bpow radix2 (-900) <= num <= bpow radix2 954) by (unfold num; lra).
  assert (QP : bpow radix2 (-953) <= num / df <= bpow radix2 954).
  { split.
    - change (-953)%Z with (-900 + -53)%Z. rewrite bpow_plus. apply Rmult_le_compat; [lra|apply bpow_ge_0|lra|]. change (-53)%Z with (- (53))%Z. rewrite bpow_opp. apply Rinv_le_contravar; lra.
    - apply Rle_trans with (num * 1); [|lra]. apply Rmult_le_compat_l; [lra|]. rewrite <- Rinv_1. apply Rinv_le_contravar; lra. }
  assert (IR : forall n, 1 <= n <= bpow radix2 53 -> bpow radix2 (-53) <= 1 / n <= 1).
  { intros n (C & D). unfold Rdiv. rewrite Rmult_1_l. split; [change (-53)%Z with (- (53))%Z; rewrite bpow_opp; apply Rinv_le_contravar; lra|rewrite <- Rinv_1; apply Rinv_le_contravar; lra]. }
  pose proof (IR n1 Rl) as H1. pose proof (IR n2 Rm) as H2. assert (B6 : bpow radix2 (-999) <= bpow radix2 (-53)) by (apply bpow_le; lia). assert (B7 : 2 <= bpow radix2 1) by (change (bpow radix2 1) with 2; lra). assert (B8 : bpow radix2 1 <= bpow radix2 1022) by (apply bpow_le; lia).
  assert (N1 := fnear_mul _ _ _ _ _ _ Il1 Sx ltac:(lra) ltac:(lra) ltac:(lra) ltac:(fold a1 S1; lra)). assert (N2 := fnear_mul _ _ _ _ _ _ Im1 Sy ltac:(lra) ltac:(lra) ltac:(lra) ltac:(fold a2 S2; lra)).
  assert (N3 := fnear_add _ _ _ _ _ N1 N2 ltac:(lra) ltac:(fold num; lra)). fold nm num in N3.
  assert (N4 := fnear_div _ _ _ _ _ _ N3 Id ltac:(lra) ltac:(lra) ltac:(lra) ltac:(lra)). fold pv in N4. assert (N5 := root_fnear sq j _ _ _ RA RT Hj N4 ltac:(lra)).
  assert (M1 := fnear_div _ _ _ _ _ _ I1 Il ltac:(lra) ltac:(lra) ltac:(lra) ltac:(lra)). assert (M2 := fnear_div _ _ _ _ _ _ I1 Im ltac:(lra) ltac:(lra) ltac:(lra) ltac:(lra)).
  assert (M3 := fnear_add _ _ _ _ _ M1 M2 ltac:(lra) ltac:(lra)). fold hn in M3. assert (M4 := root_fnear sq j _ _ _ RA RT Hj M3 ltac:(lra)).
  set (P := num / df) in *. set (H := 1 / n1 + 1 / n2) in *. pose proof (bpow_gt_0 radix2 (-53)) as B10. assert (HH : bpow radix2 (-53) <= H <= 2) by (unfold H; lra).
  assert (RW : bpow radix2 (-999) <= sqrt P * sqrt H <= bpow radix2 1022).
  { rewrite <- sqrt_mult by lra. split.
    - rewrite <- (sqrt_square (bpow radix2 (-999))) by lra. apply sqrt_le_1_alt. apply Rle_trans with (bpow radix2 (-953) * bpow radix2 (-53)); [rewrite <- !bpow_plus; apply bpow_le; lia|apply Rmult_le_compat; lra].
    - rewrite <- (sqrt_square (bpow radix2 1022)) by (apply bpow_ge_0). apply sqrt_le_1_alt. apply Rmult_le_compat; lra. }
  assert (N6 := fnear_mul _ _ _ _ _ _ N5 M4 ltac:(lra) ltac:(lra) ltac:(lra) RW).
  assert (EW : sqrt P * sqrt H = pooled_scale x y) by (unfold pooled_scale, pooled_var; rewrite Lx, Ly; unfold H, Rdiv; rewrite !Rmult_1_l; reflexivity). rewrite EW in N6.
  pose proof (diff_quot _ _ _ _ _ _ _ _ _ Gx Gy Mx My N6 ltac:(lra) Ft) as K. change ((average x - average y) / pooled_scale x y) with T in K. eapply Rle_trans; [exact K|].
  pose proof (Rabs_pos T) as TP. assert (0 <= uro * Rabs T) by (apply Rmult_le_pos; lra). assert (0 <= gam j * Rabs T) by (apply Rmult_le_pos; lra). assert (0 <= r * Rabs T) by (apply Rmult_le_pos; lra). lra.
Qed.
End Two.
