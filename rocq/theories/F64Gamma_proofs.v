(** The gamma and beta functions in binary64. *)
From Coq Require Import Arith Lia List Bool ZArith Reals Lra Psatz SpecFloat.
From Flocq Require Import Core IEEE754.BinarySingleNaN.
From Verif Require Import Outcome Scalar RealOps Elem_model Int_model Ode_model Special_model Special_spec Stat_spec F64_spec F64Cplx_spec F64Gamma_spec
  Discrete_proofs OdeOrder_proofs Special_proofs F64Flocq F64Err_proofs F64Grid_proofs F64Euler_proofs F64QR_proofs F64QREx_proofs F64Term_proofs.
Local Open Scope R_scope.

(** ** Positive numbers that agree up to a factor between exp (-c) and exp c *)
Definition near (c x y : R) : Prop := 0 < y /\ exp (- c) * y <= x <= exp c * y.
Lemma exp_mono a b : a <= b -> exp a <= exp b.
Proof. intros [H| ->]; [left; now apply exp_increasing|lra]. Qed.
Lemma near_pos c x y : near c x y -> 0 < x /\ 0 < y.
Proof. intros (Y & A & _). split; [|exact Y]. eapply Rlt_le_trans; [|exact A]. apply Rmult_lt_0_compat; [apply exp_pos|exact Y]. Qed.
Lemma near_refl x : 0 < x -> near 0 x x.
Proof. intros H. split; [exact H|]. rewrite Ropp_0, exp_0. lra. Qed.
Lemma near_le c d x y : near c x y -> c <= d -> near d x y.
Proof.
  intros (Y & A & B) H. split; [exact Y|]. split.
  - eapply Rle_trans; [|exact A]. apply Rmult_le_compat_r; [lra|]. apply exp_mono. lra.
  - eapply Rle_trans; [exact B|]. apply Rmult_le_compat_r; [lra|]. now apply exp_mono.
Qed.
Lemma near_mul c d x y x' y' : near c x y -> near d x' y' -> near (c + d) (x * x') (y * y').
Proof.
  intros N1 N2. pose proof (near_pos _ _ _ N1) as (X & Y). pose proof (near_pos _ _ _ N2) as (X' & Y'). destruct N1 as (_ & A & B), N2 as (_ & A' & B').
  split; [now apply Rmult_lt_0_compat|]. rewrite Ropp_plus_distr, !exp_plus. pose proof (exp_pos (- c)). pose proof (exp_pos (- d)). split.
  - replace (exp (- c) * exp (- d) * (y * y')) with (exp (- c) * y * (exp (- d) * y')) by ring. apply Rmult_le_compat; try assumption; apply Rmult_le_pos; lra.
  - replace (exp c * exp d * (y * y')) with (exp c * y * (exp d * y')) by ring. apply Rmult_le_compat; lra.
Qed.
Lemma near_inv c x y : near c x y -> near c (/ x) (/ y).
Proof.
  intros N. pose proof (near_pos _ _ _ N) as (X & Y). destruct N as (_ & A & B). split; [now apply Rinv_0_lt_compat|].
  assert (E : exp (- c) * exp c = 1) by (rewrite <- exp_plus, Rplus_opp_l; apply exp_0). pose proof (exp_pos c) as P. pose proof (exp_pos (- c)) as Q. split.
  - replace (exp (- c) * / y) with (/ (exp c * y)). 2: { rewrite exp_Ropp, Rinv_mult. reflexivity. } apply Rinv_le_contravar; assumption.
  - replace (exp c * / y) with (/ (exp (- c) * y)). 2: { rewrite exp_Ropp, Rinv_mult, Rinv_inv. reflexivity. }
    apply Rinv_le_contravar; [apply Rmult_lt_0_compat; assumption|exact A].
Qed.
Lemma near_div c d x y x' y' : near c x y -> near d x' y' -> near (c + d) (x / x') (y / y').
Proof. intros A B. apply near_mul; [exact A|now apply near_inv]. Qed.
Lemma near_trans c d x y w : near c x y -> near d y w -> near (c + d) x w.
Proof.
  intros N1 N2. pose proof (near_pos _ _ _ N2) as (Y & W). destruct N1 as (_ & A & B), N2 as (_ & A' & B'). split; [exact W|]. rewrite Ropp_plus_distr, !exp_plus. split.
  - eapply Rle_trans; [|exact A]. rewrite Rmult_assoc. apply Rmult_le_compat_l; [left; apply exp_pos|exact A'].
  - eapply Rle_trans; [exact B|]. rewrite Rmult_assoc. apply Rmult_le_compat_l; [left; apply exp_pos|exact B'].
Qed.
Lemma near_sym c x y : near c x y -> near c y x.
Proof.
  intros N. pose proof (near_pos _ _ _ N) as (X & Y). destruct N as (_ & A & B). assert (E : exp (- c) * exp c = 1) by (rewrite <- exp_plus, Rplus_opp_l; apply exp_0).
  pose proof (exp_pos c) as P. pose proof (exp_pos (- c)) as Q. split; [exact X|]. split.
  - apply (Rmult_le_compat_l (exp (- c))) in B; [|lra]. rewrite <- Rmult_assoc, E in B. lra.
  - apply (Rmult_le_compat_l (exp c)) in A; [|lra]. rewrite <- Rmult_assoc, (Rmult_comm (exp c)), E in A. lra.
Qed.
Lemma near_rel e x y : 0 <= e <= / 100 -> 0 < y -> Rabs (x - y) <= e * y -> near (102 / 100 * e) x y.
Proof.
  intros He Y H. assert (B : y - e * y <= x <= y + e * y) by (revert H; unfold Rabs; destruct Rcase_abs; lra). split; [exact Y|].
  pose proof (exp_ineq1_le (102 / 100 * e)) as E1. split.
  - assert (E2 : exp (- (102 / 100 * e)) <= 1 - e).
    { rewrite exp_Ropp. apply Rle_trans with (/ (1 + 102 / 100 * e)); [apply Rinv_le_contravar; lra|]. apply (Rmult_le_reg_r (1 + 102 / 100 * e)); [lra|]. rewrite Rinv_l by lra. nra. }
    apply (Rmult_le_compat_r y) in E2; lra.
  - assert (E2 : (1 + e) * y <= exp (102 / 100 * e) * y) by (apply Rmult_le_compat_r; lra). lra.
Qed.
Lemma rel_near c x y : 0 <= c <= / 100 -> near c x y -> Rabs (x - y) <= 102 / 100 * c * y.
Proof.
  intros Hc (Y & A & B). pose proof (exp_ineq1_le (- c)) as E1.
  assert (E2 : exp c <= 1 + 102 / 100 * c).
  { replace c with (- - c) at 1 by ring. rewrite exp_Ropp. apply Rle_trans with (/ (1 - c)); [apply Rinv_le_contravar; lra|]. apply (Rmult_le_reg_r (1 - c)); [lra|]. rewrite Rinv_l by lra. nra. }
  apply (Rmult_le_compat_r y) in E1; [|lra]. apply (Rmult_le_compat_r y) in E2; [|lra]. assert (0 <= c * y) by (apply Rmult_le_pos; lra).
  apply Rabs_le. lra.
Qed.
Lemma near_range c x y : 0 <= c <= / 100 -> near c x y -> 98 / 100 * y <= x <= 102 / 100 * y.
Proof.
  intros Hc N. pose proof (rel_near c x y Hc N) as H. destruct (near_pos _ _ _ N) as (_ & Y). assert (102 / 100 * c * y <= 2 / 100 * y) by (apply Rmult_le_compat_r; lra).
  revert H. unfold Rabs. destruct Rcase_abs; lra.
Qed.

(** ** Rounded operations *)
Lemma uro_b : 0 < uro <= / 1000000000000000. Proof. split; [apply uro_pos|apply uro_tiny]. Qed.
Lemma round_near (v w : R) : bpow radix2 (-1000) <= w -> Rabs (v - w) <= uro * w + eta64 -> near (103 / 100 * uro) v w.
Proof.
  intros W H. pose proof uro_b as U. pose proof eta_small as E. assert (B0 : 0 < bpow radix2 (-1000)) by apply bpow_gt_0.
  assert (uro * bpow radix2 (-1000) <= uro * w) by (apply Rmult_le_compat_l; lra).
  apply (near_le (102 / 100 * (uro * (1 + / 1000)))); [|lra]. apply near_rel; [lra|lra|]. assert (0 <= uro * w) by (apply Rmult_le_pos; lra). lra.
Qed.
Definition fnear (c : R) (x : f64) (X : R) : Prop := fgood x /\ near c (fval x) X.
Lemma fnear_le c d x X : fnear c x X -> c <= d -> fnear d x X.
Proof. intros (G & N) H. split; [exact G|]. now apply (near_le c). Qed.
Lemma fnear_mul c d x y X Y : fnear c x X -> fnear d y Y -> 0 <= c -> 0 <= d -> c + d <= / 100 -> bpow radix2 (-999) <= X * Y <= bpow radix2 1022 ->
  fnear (c + d + 103 / 100 * uro) (mul x y) (X * Y).
Proof.
  intros ((Vx & Fx) & Nx) ((Vy & Fy) & Ny) C0 D0 CD B. pose proof (near_mul _ _ _ _ _ _ Nx Ny) as NP. pose proof (near_range _ _ _ (conj (Rplus_le_le_0_compat _ _ C0 D0) CD) NP) as Rg.
  assert (B1 : bpow radix2 1023 = 2 * bpow radix2 1022) by (change 1023%Z with (1 + 1022)%Z; rewrite bpow_plus; reflexivity).
  assert (B2 : bpow radix2 (-999) = 2 * bpow radix2 (-1000)) by (change (-999)%Z with (1 + -1000)%Z; rewrite bpow_plus; reflexivity).
  assert (B0 : 0 < bpow radix2 (-1000)) by apply bpow_gt_0. assert (A : Rabs (fval x * fval y) = fval x * fval y) by (apply Rabs_pos_eq; lra).
  destruct (fmul_ok x y Vx Vy Fx Fy) as (V & F & Er); [rewrite A; lra|]. rewrite A in Er. split; [split; assumption|].
  rewrite Rplus_comm. eapply near_trans; [eapply round_near; [|exact Er]; lra|exact NP].
Qed.
Lemma fnear_div c d x y X Y : fnear c x X -> fnear d y Y -> 0 <= c -> 0 <= d -> c + d <= / 100 -> bpow radix2 (-999) <= X / Y <= bpow radix2 1022 ->
  fnear (c + d + 103 / 100 * uro) (div x y) (X / Y).
Proof.
  intros ((Vx & Fx) & Nx) ((Vy & Fy) & Ny) C0 D0 CD B. pose proof (near_div _ _ _ _ _ _ Nx Ny) as NP. pose proof (near_range _ _ _ (conj (Rplus_le_le_0_compat _ _ C0 D0) CD) NP) as Rg.
  pose proof (near_pos _ _ _ Ny) as (Y0 & _).
  assert (B1 : bpow radix2 1023 = 2 * bpow radix2 1022) by (change 1023%Z with (1 + 1022)%Z; rewrite bpow_plus; reflexivity).
  assert (B2 : bpow radix2 (-999) = 2 * bpow radix2 (-1000)) by (change (-999)%Z with (1 + -1000)%Z; rewrite bpow_plus; reflexivity).
  assert (B0 : 0 < bpow radix2 (-1000)) by apply bpow_gt_0. assert (A : Rabs (fval x / fval y) = fval x / fval y) by (apply Rabs_pos_eq; lra).
  destruct (fdiv_ok x y Vx Vy Fx Fy) as (V & F & Er); [lra|rewrite A; lra|]. rewrite A in Er. split; [split; assumption|].
  rewrite Rplus_comm. eapply near_trans; [eapply round_near; [|exact Er]; lra|exact NP].
Qed.

(** ** The Lanczos sum *)
Definition lz_abs (z : R) : R :=
  99999999999980993 / 100000000000000000 + 6765203681218851 / 10000000000000 / z + 12591392167224028 / 10000000000000 / (z + 1)
  + 77132342877765313 / 100000000000000 / (z + 2) + 17661502916214059 / 100000000000000 / (z + 3) + 12507343278686905 / 1000000000000000 / (z + 4)
  + 13857109526572012 / 100000000000000000 / (z + 5) + 99843695780195716 / 10000000000000000000000 / (z + 6) + 15056327351493116 / 100000000000000000000000 / (z + 7).
(** The numerator of 80 (Lanczos sum) - (sum of the absolute values) has positive coefficients. *)
Lemma lz_abs_bound z : 0 < z -> lz_abs z <= 80 * lanczos_sum z.
Proof.
  intros H. unfold lanczos_sum, lz_abs. rewrite !lit_R. rops.
  match goal with |- ?a <= ?b => assert (D : b - a = ((((((((7899999999998498447000000 * z + 127242269937452258166571804) * z + 1827225847820404952506623524) * z + 41680822537334361116685300300) * z + 559465603446057205274875605340) * z + 3963174716002044064593381128696) * z + 15404928410794024911480313347616) * z + 31554281424494510654237909575680) * z + 26936334977140977141600000000000) / 100000000000000000000000 / (z * (z + 1) * (z + 2) * (z + 3) * (z + 4) * (z + 5) * (z + 6) * (z + 7))) end.
  { field. repeat split; lra. }
  match type of D with _ = ?q => assert (Q : 0 < q) end.
  { apply Rdiv_lt_0_compat; [apply Rdiv_lt_0_compat; [|lra]|repeat (apply Rmult_lt_0_compat; [|lra]); exact H].
    repeat (apply Rplus_lt_0_compat; [apply Rmult_lt_0_compat; [|assumption]|lra]). lra. }
  rewrite <- D in Q. clear D. lra.
Qed.

(** A positive constant and its rounded value. *)
Definition cof (c : f64) (C : R) : Prop := fnear (31 / 10 * uro) c C /\ / 100000000 <= C <= 1300.
Ltac cof_tac := match goal with |- cof ?t _ => let v := eval vm_compute in t in replace t with v by (vm_compute; reflexivity) end;
  split; [|lra]; split; [split; vm_compute; reflexivity|]; apply (near_le (102 / 100 * (3 * uro))); [|pose proof uro_b; lra];
  apply near_rel; [pose proof uro_b; lra|lra|]; rewrite fval_fin, uro_val; simpl; apply Rabs_le; lra.
Lemma cof1 : cof (lit 6765203681218851 10000000000000) (6765203681218851 / 10000000000000). Proof. cof_tac. Qed.
Lemma cof2 : cof (lit 12591392167224028 10000000000000) (12591392167224028 / 10000000000000). Proof. cof_tac. Qed.
Lemma cof3 : cof (lit 77132342877765313 100000000000000) (77132342877765313 / 100000000000000). Proof. cof_tac. Qed.
Lemma cof4 : cof (lit 17661502916214059 100000000000000) (17661502916214059 / 100000000000000). Proof. cof_tac. Qed.
Lemma cof5 : cof (lit 12507343278686905 1000000000000000) (12507343278686905 / 1000000000000000). Proof. cof_tac. Qed.
Lemma cof6 : cof (lit 13857109526572012 100000000000000000) (13857109526572012 / 100000000000000000). Proof. cof_tac. Qed.
Lemma cof7 : cof (lit 99843695780195716 10000000000000000000000) (99843695780195716 / 10000000000000000000000). Proof. cof_tac. Qed.
Lemma cof8 : cof (lit 15056327351493116 100000000000000000000000) (15056327351493116 / 100000000000000000000000). Proof. cof_tac. Qed.
Lemma cof0 : cof (lit 99999999999980993 100000000000000000) (99999999999980993 / 100000000000000000). Proof. cof_tac. Qed.
Ltac num_tac := match goal with |- fgood ?t /\ _ => let v := eval vm_compute in t in replace t with v by (vm_compute; reflexivity) end;
  split; [split; vm_compute; reflexivity|]; rewrite fval_fin; simpl; lra.
Lemma num2 : fgood (lit 2 1) /\ fval (lit 2 1) = 2. Proof. num_tac. Qed.
Lemma num3 : fgood (lit 3 1) /\ fval (lit 3 1) = 3. Proof. num_tac. Qed.
Lemma num4 : fgood (lit 4 1) /\ fval (lit 4 1) = 4. Proof. num_tac. Qed.
Lemma num5 : fgood (lit 5 1) /\ fval (lit 5 1) = 5. Proof. num_tac. Qed.
Lemma num6 : fgood (lit 6 1) /\ fval (lit 6 1) = 6. Proof. num_tac. Qed.
Lemma num7 : fgood (lit 7 1) /\ fval (lit 7 1) = 7. Proof. num_tac. Qed.
Lemma num1 : fgood (one : f64) /\ fval (one : f64) = 1. Proof. split; [split; vm_compute; reflexivity|apply fval_one]. Qed.
Lemma num132 : fgood (lit 13 2) /\ fval (lit 13 2) = 13 / 2. Proof. num_tac. Qed.
Lemma num12 : fgood (lit 1 2) /\ fval (lit 1 2) = / 2. Proof. num_tac. Qed.

Lemma big20 : 1000000 <= bpow radix2 1022.
Proof. apply Rle_trans with (bpow radix2 20); [simpl; lra|apply bpow_le; lia]. Qed.
Lemma big23 : 1000000 <= bpow radix2 1023.
Proof. apply Rle_trans with (bpow radix2 20); [simpl; lra|apply bpow_le; lia]. Qed.
Lemma tiny40 : bpow radix2 (-999) <= / 1000000000000.
Proof. apply Rle_trans with (bpow radix2 (-40)); [apply bpow_le; lia|simpl; lra]. Qed.

(** z is an f64 within a relative error 2.1 u of x. *)
Section At.
Variables (z : f64) (x : R).
Hypotheses (Gz : fgood z) (Hx : 49 / 100 <= x <= 141) (Hz : Rabs (fval z - x) <= 21 / 10 * uro * x).
Lemma z_rng : x - 21 / 10 * (uro * x) <= fval z <= x + 21 / 10 * (uro * x) /\ 0 <= uro * x <= / 1000000.
Proof.
  pose proof uro_b as U. assert (0 <= uro * x) by (apply Rmult_le_pos; lra). assert (uro * x <= / 1000000000000000 * 141) by (apply Rmult_le_compat; lra).
  split; [revert Hz; unfold Rabs; destruct Rcase_abs; lra|lra].
Qed.
Lemma shift (c : f64) i : fgood c -> fval c = i -> 0 <= i <= 7 -> fgood (add z c) /\ Rabs (fval (add z c) - (x + i)) <= 311 / 100 * uro * (x + i).
Proof.
  intros (Vc & Fc) Ec Hi. destruct Gz as (Vz & Fz). pose proof z_rng as ZR. pose proof uro_b as U. pose proof big23 as B.
  destruct (fadd_ok z c Vz Vc Fz Fc) as (V & F & E). { rewrite Ec, Rabs_pos_eq; lra. } split; [split; assumption|]. rewrite Ec, (Rabs_pos_eq (fval z + i)) in E by lra.
  replace (fval (add z c) - (x + i)) with ((fval (add z c) - (fval z + i)) + (fval z - x)) by ring. eapply Rle_trans; [apply Rabs_triang|].
  assert (uro * (fval z + i) <= uro * (x + i + 3 / 1000000)) by (apply Rmult_le_compat_l; lra). assert (0 <= uro * i) by (apply Rmult_le_pos; lra).
  assert (uro * (49 / 100) <= uro * x) by (apply Rmult_le_compat_l; lra). lra.
Qed.
Lemma shift_near (c : f64) i : fgood c -> fval c = i -> 0 <= i <= 7 -> fnear (320 / 100 * uro) (add z c) (x + i).
Proof.
  intros G E Hi. destruct (shift c i G E Hi) as (G' & H). split; [exact G'|]. pose proof uro_b as U. apply (near_le (102 / 100 * (311 / 100 * uro))); [|lra].
  apply near_rel; [lra|lra|exact H].
Qed.
Lemma term (c y : f64) C Y : cof c C -> fnear (320 / 100 * uro) y Y -> 49 / 100 <= Y <= 150 ->
  fgood (div c y) /\ Rabs (fval (div c y) - C / Y) <= 75 / 10 * uro * (C / Y) /\ 0 < C / Y <= 4000.
Proof.
  intros (Nc & HC) Ny HY. pose proof uro_b as U. assert (Y1 : / 150 <= / Y <= 100 / 49) by (split; [apply Rinv_le_contravar; lra|replace (100 / 49) with (/ (49 / 100)) by field; apply Rinv_le_contravar; lra]).
  assert (Q : / 100000000 * / 150 <= C / Y <= 1300 * (100 / 49)) by (unfold Rdiv; split; apply Rmult_le_compat; lra). pose proof tiny40 as T. pose proof big20 as B.
  destruct (fnear_div _ _ _ _ _ _ Nc Ny ltac:(lra) ltac:(lra) ltac:(lra)) as (G & N); [lra|]. split; [exact G|]. split; [|lra].
  eapply Rle_trans; [apply (rel_near (31 / 10 * uro + 320 / 100 * uro + 103 / 100 * uro)); [lra|exact N]|]. apply Rmult_le_compat_r; lra.
Qed.
(** One more term of the sum. *)
Definition Inv (k : R) (s : f64) (S B : R) : Prop := fgood s /\ Rabs (fval s - S) <= k * uro * B /\ Rabs S <= B.
Lemma inv_op (k : R) (s t : f64) S B X (sg : bool) : Inv k s S B -> fgood t -> Rabs (fval t - X) <= 75 / 10 * uro * X -> 0 < X <= 4000 -> 75 / 10 <= k <= 20 -> 0 < B <= 30000 ->
  Inv (k + 101 / 100) (if sg then add s t else sub s t) (if sg then S + X else S - X) (B + X).
Proof.
  intros ((Vs & Fs) & Hs & HS) (Vt & Ft) Ht HX Hk HB. pose proof uro_b as U. pose proof big23 as B23.
  assert (U1 : 0 <= k * uro) by (apply Rmult_le_pos; lra). assert (U2 : k * uro <= 20 * / 1000000000000000) by (apply Rmult_le_compat; lra).
  assert (KB : k * uro * B <= / 10000 * B) by (apply Rmult_le_compat_r; lra). assert (UX : 75 / 10 * uro * X <= / 10000 * X) by (apply Rmult_le_compat_r; lra).
  assert (K2 : k * uro * (B + X) <= / 10000 * (B + X)) by (apply Rmult_le_compat_r; lra).
  assert (UB : uro * (10001 / 10000 * (B + X)) <= 101 / 100 * uro * (B + X)) by (assert (0 <= uro * (B + X)) by (apply Rmult_le_pos; lra); lra).
  assert (KX : 75 / 10 * uro * X <= k * uro * X) by (apply Rmult_le_compat_r; [lra|]; apply Rmult_le_compat_r; lra).
  assert (M : Rabs (if sg then S + X else S - X) <= B + X) by (revert HS; destruct sg; unfold Rabs; repeat destruct Rcase_abs; lra).
  assert (M2 : Rabs ((if sg then fval s + fval t else fval s - fval t) - (if sg then S + X else S - X)) <= k * uro * B + 75 / 10 * uro * X)
    by (revert Hs Ht; destruct sg; unfold Rabs; repeat destruct Rcase_abs; lra).
  assert (M3 : Rabs (if sg then fval s + fval t else fval s - fval t) <= 10001 / 10000 * (B + X)) by (revert M M2; unfold Rabs; repeat destruct Rcase_abs; lra).
  assert (M4 : fgood (if sg then add s t else sub s t) /\ Rabs (fval (if sg then add s t else sub s t) - (if sg then fval s + fval t else fval s - fval t)) <= uro * (10001 / 10000 * (B + X))).
  { destruct sg; [destruct (fadd_ok s t Vs Vt Fs Ft) as (V & F & E)|destruct (fsub_ok s t Vs Vt Fs Ft) as (V & F & E)]; try lra;
      (split; [split; assumption|eapply Rle_trans; [exact E|apply Rmult_le_compat_l; lra]]). }
  destruct M4 as (G & M4). split; [exact G|]. split; [|exact M].
  replace ((k + 101 / 100) * uro * (B + X)) with (101 / 100 * uro * (B + X) + k * uro * B + k * uro * X) by ring.
  revert M2 M4. generalize (if sg then S + X else S - X) (if sg then fval s + fval t else fval s - fval t) (fval (if sg then add s t else sub s t)). intros. revert M2 M4. unfold Rabs. repeat destruct Rcase_abs; lra.
Qed.
Lemma sum_f64 : fnear (1280 * uro) (lanczos_sum z) (lanczos_sum x).
Proof.
  pose proof uro_b as U. pose proof z_rng as ZR.
  assert (Nz : fnear (320 / 100 * uro) z x). { split; [exact Gz|]. apply (near_le (102 / 100 * (21 / 10 * uro))); [|lra]. apply near_rel; [lra|lra|exact Hz]. }
  destruct num1 as (A1 & B1). destruct num2 as (A2 & B2). destruct num3 as (A3 & B3). destruct num4 as (A4 & B4). destruct num5 as (A5 & B5). destruct num6 as (A6 & B6). destruct num7 as (A7 & B7).
  destruct (term _ _ _ _ cof1 Nz ltac:(lra)) as (G1 & E1 & R1).
  destruct (term _ _ _ _ cof2 (shift_near _ 1 A1 B1 ltac:(lra)) ltac:(lra)) as (G2 & E2 & R2).
  destruct (term _ _ _ _ cof3 (shift_near _ 2 A2 B2 ltac:(lra)) ltac:(lra)) as (G3 & E3 & R3).
  destruct (term _ _ _ _ cof4 (shift_near _ 3 A3 B3 ltac:(lra)) ltac:(lra)) as (G4 & E4 & R4).
  destruct (term _ _ _ _ cof5 (shift_near _ 4 A4 B4 ltac:(lra)) ltac:(lra)) as (G5 & E5 & R5).
  destruct (term _ _ _ _ cof6 (shift_near _ 5 A5 B5 ltac:(lra)) ltac:(lra)) as (G6 & E6 & R6).
  destruct (term _ _ _ _ cof7 (shift_near _ 6 A6 B6 ltac:(lra)) ltac:(lra)) as (G7 & E7 & R7).
  destruct (term _ _ _ _ cof8 (shift_near _ 7 A7 B7 ltac:(lra)) ltac:(lra)) as (G8 & E8 & R8).
  assert (I0 : Inv (75 / 10) (lit 99999999999980993 100000000000000000) (99999999999980993 / 100000000000000000) (99999999999980993 / 100000000000000000)).
  { destruct cof0 as ((G0 & N0) & C0). split; [exact G0|]. split; [|rewrite Rabs_pos_eq; lra]. eapply Rle_trans; [apply (rel_near (31 / 10 * uro)); [lra|exact N0]|]. apply Rmult_le_compat_r; lra. }
  pose proof (inv_op _ _ _ _ _ _ true I0 G1 E1 R1 ltac:(lra) ltac:(lra)) as I1.
  pose proof (inv_op _ _ _ _ _ _ false I1 G2 E2 R2 ltac:(lra) ltac:(lra)) as I2.
  pose proof (inv_op _ _ _ _ _ _ true I2 G3 E3 R3 ltac:(lra) ltac:(lra)) as I3.
  pose proof (inv_op _ _ _ _ _ _ false I3 G4 E4 R4 ltac:(lra) ltac:(lra)) as I4.
  pose proof (inv_op _ _ _ _ _ _ true I4 G5 E5 R5 ltac:(lra) ltac:(lra)) as I5.
  pose proof (inv_op _ _ _ _ _ _ false I5 G6 E6 R6 ltac:(lra) ltac:(lra)) as I6.
  pose proof (inv_op _ _ _ _ _ _ true I6 G7 E7 R7 ltac:(lra) ltac:(lra)) as I7.
  pose proof (inv_op _ _ _ _ _ _ true I7 G8 E8 R8 ltac:(lra) ltac:(lra)) as I8.
  clear I0 I1 I2 I3 I4 I5 I6 I7. cbv iota in I8. destruct I8 as (G & E & _).
  split; [exact G|]. assert (X0 : 0 < x) by lra. pose proof (lanczos_sum_pos x X0) as P. pose proof (lz_abs_bound x X0) as LB.
  assert (ES : lanczos_sum x = 99999999999980993 / 100000000000000000 + 6765203681218851 / 10000000000000 / x - 12591392167224028 / 10000000000000 / (x + 1)
    + 77132342877765313 / 100000000000000 / (x + 2) - 17661502916214059 / 100000000000000 / (x + 3) + 12507343278686905 / 1000000000000000 / (x + 4)
    - 13857109526572012 / 100000000000000000 / (x + 5) + 99843695780195716 / 10000000000000000000000 / (x + 6) + 15056327351493116 / 100000000000000000000000 / (x + 7)).
  { unfold lanczos_sum. rewrite !lit_R. rops. unfold Rdiv. rewrite !Rinv_1, !Rmult_1_r. reflexivity. }
  apply (near_le (102 / 100 * (80 * (75 / 10 + 8 * (101 / 100)) * uro))); [|lra]. apply near_rel; [lra|exact P|]. rewrite ES at 1. eapply Rle_trans; [exact E|].
  fold (lz_abs x). match goal with |- ?k * uro * _ <= _ => apply Rle_trans with (k * uro * (80 * lanczos_sum x)); [apply Rmult_le_compat_l; [lra|exact LB]|] end. right. ring.
Qed.
End At.
