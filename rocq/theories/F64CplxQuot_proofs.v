(** Quotients of the complex sine, cosine and their hyperbolic forms in binary64. *)
From Coq Require Import Arith Lia List Bool ZArith Reals Lra Psatz SpecFloat.
From Flocq Require Import Core IEEE754.BinarySingleNaN.
From Verif Require Import Outcome Scalar RealOps Elem_model Complex_model F64_spec F64Cplx_spec F64QR_spec F64CplxFun_spec
  F64Flocq F64Err_proofs F64Grid_proofs F64Euler_proofs F64QR_proofs F64Cplx_proofs F64Libm_proofs Int_model Int_proofs.
From Verif Require Import F64CplxFun_proofs.
Local Open Scope R_scope.

(** The quotient of two computed numbers, each within 2 k u h of a number of modulus at most h. *)
Lemma quot_core (k h : R) (s c : cplx f64) (S C t : cplx R) : 6 <= k <= 3000000 -> 1 <= h <= bpow radix2 495 -> cgood s -> cgood c -> cmod S <= h -> cmod C <= h ->
  cmod (csub (cval s) S) <= 2 * k * uro * h -> cmod (csub (cval c) C) <= 2 * k * uro * h -> cmul t C = S -> 4 * k * uro * h <= cmod C ->
  exists q, cdiv s c = Ret q /\ cgood q /\ cmod (csub (cval q) t) <= 4 * (k + 3) * uro * (1 + cmod t) * (h / cmod C).
Proof.
  intros Hk (H1 & H2) S2 C2 M1 M2 S3 C3 Ht Hc.
  pose proof uro_pos as U. pose proof uro_small as U1. pose proof eta64_pos as T0.
  assert (T2 : eta64 <= / 1000 * uro * (uro * uro)). { assert (K3 : eta64 <= bpow radix2 (-10) * (bpow radix2 (-53) * (bpow radix2 (-53) * bpow radix2 (-53)))) by (unfold eta64; rewrite <- !bpow_plus; apply bpow_le; lia). unfold uro.
    assert (K4 : bpow radix2 (-10) <= / 1000) by (simpl bpow; lra). eapply Rle_trans; [exact K3|]. rewrite Rmult_assoc. apply Rmult_le_compat_r; [|exact K4]. repeat apply Rmult_le_pos; apply bpow_ge_0. }
  set (ep := 2 * k * uro * h) in *. assert (Hc2 : 2 * ep <= cmod C) by (unfold ep; lra). assert (UH : uro <= uro * h) by (rewrite <- (Rmult_1_r uro) at 1; apply Rmult_le_compat_l; lra).
  assert (AB : 0 <= (k - 6) * (uro * h)) by (apply Rmult_le_pos; [lra|apply Rmult_le_pos; lra]). assert (E0 : 12 * uro <= ep) by (unfold ep; lra).
  assert (P : 2 * k * uro <= / 100000) by nra. assert (PC : ep <= / 100000 * h) by (unfold ep; apply Rmult_le_compat_r; lra).
  assert (Lc : cmod C / 2 <= cmod (cval c)). { pose proof (cmod_near C (cval c)) as N. replace (cmod (csub C (cval c))) with (cmod (csub (cval c) C)) in N by (unfold cmod; f_equal; unfold csub; cbn [re im sub R_ops]; ring). lra. }
  pose proof (cmod_near (cval s) S) as Ns. pose proof (cmod_near (cval c) C) as Nc.
  assert (B5 : bpow radix2 500 = 32 * bpow radix2 495) by (change 500%Z with (5 + 495)%Z; rewrite bpow_plus; reflexivity).
  assert (B51 : bpow radix2 500 <= bpow radix2 510) by (apply bpow_le; lia).
  pose proof (re_le (cval s)) as R1. pose proof (im_le (cval s)) as R2. pose proof (re_le (cval c)) as R3. pose proof (im_le (cval c)) as R4. change (re (cval s)) with (fval (re s)) in R1. change (im (cval s)) with (fval (im s)) in R2. change (re (cval c)) with (fval (re c)) in R3. change (im (cval c)) with (fval (im c)) in R4.
  assert (B500 : bpow radix2 (-500) <= uro) by (unfold uro; apply bpow_le; lia).
  destruct (cdiv_f64 s c S2 C2) as (q & e & Q1 & Q2 & Q3 & Q4); [split; lra|split; lra|apply cabove_mod; lra|].
  exists q. split; [exact Q1|]. split; [exact Q2|]. set (mc := cmod (cval c)) in *. assert (mc0 : 0 < mc) by lra. assert (C0 : 0 < cmod C) by lra.
  assert (Ee : cmul e (cval c) = cval s).
  { assert (D0 : re (cval c) * re (cval c) + im (cval c) * im (cval c) <> 0). { intro Z. unfold mc, cmod in mc0. rewrite Z, sqrt_0 in mc0. lra. }
    exact (cdiv_back _ _ _ Q3 D0). }
  assert (D : cmod (csub e t) * mc <= ep * (1 + cmod t)).
  { unfold mc. rewrite <- cmod_mul. replace (cmul (csub e t) (cval c)) with (csub (csub (cval s) S) (cmul t (csub (cval c) C))).
    - eapply Rle_trans; [apply cmod_sub|]. rewrite cmod_mul. pose proof (cmod_pos t). assert (cmod t * cmod (csub (cval c) C) <= cmod t * ep) by (apply Rmult_le_compat_l; lra). lra.
    - rewrite <- Ee, <- Ht. unfold csub, cmul. cbn [re im sub mul add R_ops]. f_equal; ring. }
  pose proof (cmod_pos t) as F0. set (F := cmod t) in *. set (X := (1 + F) * (h / cmod C)). assert (HC1 : 1 <= h / cmod C) by (apply Rmult_le_reg_r with (cmod C); [exact C0|]; unfold Rdiv; rewrite Rmult_assoc, Rinv_l, Rmult_1_r by lra; lra).
  assert (X1 : 1 + F <= X) by (unfold X; rewrite <- (Rmult_1_r (1 + F)) at 1; apply Rmult_le_compat_l; lra).
  assert (D2 : cmod (csub e t) <= 4 * k * uro * X).
  { apply Rmult_le_reg_r with mc; [exact mc0|]. eapply Rle_trans; [exact D|].
    replace (ep * (1 + F)) with (4 * k * uro * X * (cmod C / 2)) by (unfold ep, X; field; lra). apply Rmult_le_compat_l; [|lra]. apply Rmult_le_pos; [apply Rmult_le_pos; lra|lra]. }
  assert (Sc : cmod (cval s) / mc = cmod e). { rewrite <- Ee, cmod_mul. fold mc. field. lra. } rewrite Sc in Q4.
  pose proof (cmod_near e t) as Ne. fold F in Ne.
  assert (P2 : 4 * k * uro * X <= / 10000 * X) by (apply Rmult_le_compat_r; lra).
  assert (UX : uro * cmod e <= uro * (1001 / 1000 * X)) by (apply Rmult_le_compat_l; lra).
  assert (I1 : 5 * eta64 / (mc * mc) <= / 1000 * uro). { apply Rmult_le_reg_r with (mc * mc); [now apply Rmult_lt_0_compat|]. unfold Rdiv. rewrite Rmult_assoc, Rinv_l, Rmult_1_r by (apply Rgt_not_eq; now apply Rmult_lt_0_compat).
    assert (12 * uro * (12 * uro) <= mc * mc) by (apply Rmult_le_compat; lra). assert (/ 1000 * uro * (12 * uro * (12 * uro)) <= / 1000 * uro * (mc * mc)) by (apply Rmult_le_compat_l; lra). lra. }
  assert (I2 : eta64 <= / 1000 * uro). { eapply Rle_trans; [exact T2|]. rewrite <- (Rmult_1_r (/ 1000 * uro)) at 2. apply Rmult_le_compat_l; [lra|nra]. }
  assert (UX1 : uro <= uro * X) by (rewrite <- (Rmult_1_r uro) at 1; apply Rmult_le_compat_l; lra).
  pose proof (cmod_tri (cval q) e t) as T. replace (4 * (k + 3) * uro * (1 + F) * (h / cmod C)) with (4 * (k + 3) * uro * X) by (unfold X; ring). lra.
Qed.
Lemma one_c : cgood (cone : cplx f64) /\ cval (cone : cplx f64) = mkC 1 0 /\ cmod (mkC 1 0) = 1.
Proof. split; [repeat split|]. split; [unfold cval, cone; cbn [re im]; f_equal; exact one_val|]. unfold cmod. cbn [re im]. replace (1 * 1 + 0 * 0) with (1 * 1) by ring. apply sqrt_square. lra. Qed.
Lemma csub_self (w : cplx R) : cmod (csub w w) = 0.
Proof. unfold cmod, csub. cbn [re im sub R_ops]. replace ((re w - re w) * (re w - re w) + (im w - im w) * (im w - im w)) with 0 by ring. apply sqrt_0. Qed.
Section Quot.
Context {E : EOps f64}.
Variables (a b : R).
Hypothesis (Ha : 0 <= a <= 1000000) (Hb : 0 <= b <= 1000000) (HE : exp_acc a texp) (HC : trig_acc b tcos cos) (HS : trig_acc b tsin sin).
Lemma err_pos k h : 0 <= k -> 1 <= h -> 0 <= 2 * k * uro * h.
Proof. intros K H. pose proof uro_pos. apply Rmult_le_pos; [apply Rmult_le_pos; lra|lra]. Qed.
Theorem csec_f64 (z : cplx f64) (t : cplx R) : cgood z -> Rabs (fval (im z)) <= 340 -> cmul t (cos_c (cval z)) = mkC 1 0 ->
  4 * (a + b + 6) * uro * cosh (fval (im z)) <= cmod (cos_c (cval z)) ->
  exists q, csec z = Ret q /\ cgood q /\ cmod (csub (cval q) t) <= 4 * (a + b + 9) * uro * (1 + cmod t) * (cosh (fval (im z)) / cmod (cos_c (cval z))).
Proof.
  intros Gz Hy Ht Hc. destruct (ccos_f64 a b Ha Hb HE HC HS z Gz Hy) as (c & C1 & C2 & C3). unfold csec. rewrite C1. cbn [bind]. destruct (cosh_big _ Hy) as (H1 & H2 & _). destruct (sin_c_le (cval z) Hy) as (M1 & M2).
  destruct one_c as (G1 & V1 & N1). replace (a + b + 9) with (a + b + 6 + 3) by ring.
  apply (quot_core (a + b + 6) (cosh (fval (im z))) cone c (mkC 1 0)); try assumption; try lra; try (split; assumption). rewrite V1, csub_self. apply err_pos; lra.
Qed.
Theorem ccsc_f64 (z : cplx f64) (t : cplx R) : cgood z -> Rabs (fval (im z)) <= 340 -> cmul t (sin_c (cval z)) = mkC 1 0 ->
  4 * (a + b + 6) * uro * cosh (fval (im z)) <= cmod (sin_c (cval z)) ->
  exists q, ccsc z = Ret q /\ cgood q /\ cmod (csub (cval q) t) <= 4 * (a + b + 9) * uro * (1 + cmod t) * (cosh (fval (im z)) / cmod (sin_c (cval z))).
Proof.
  intros Gz Hy Ht Hc. destruct (csin_f64 a b Ha Hb HE HC HS z Gz Hy) as (c & C1 & C2 & C3). unfold ccsc. rewrite C1. cbn [bind]. destruct (cosh_big _ Hy) as (H1 & H2 & _). destruct (sin_c_le (cval z) Hy) as (M1 & M2).
  destruct one_c as (G1 & V1 & N1). replace (a + b + 9) with (a + b + 6 + 3) by ring.
  apply (quot_core (a + b + 6) (cosh (fval (im z))) cone c (mkC 1 0)); try assumption; try lra; try (split; assumption). rewrite V1, csub_self. apply err_pos; lra.
Qed.
(** The hyperbolic functions are the circular ones at i z. *)
Lemma sinh_c_le (z : cplx R) : Rabs (re z) <= 340 -> cmod (sinh_c z) <= cosh (re z) /\ cmod (cosh_c z) <= cosh (re z).
Proof.
  intros H. destruct (sin_c_le (mkC (- im z) (re z)) H) as (A & B). cbn [re im] in A, B. split.
  - replace (cmod (sinh_c z)) with (cmod (sin_c (mkC (- im z) (re z)))); [exact A|]. unfold cmod, sin_c, sinh_c. cbn [re im]. rewrite sin_neg, cos_neg. f_equal. ring.
  - replace (cmod (cosh_c z)) with (cmod (cos_c (mkC (- im z) (re z)))); [exact B|]. unfold cmod, cos_c, cosh_c. cbn [re im]. rewrite sin_neg, cos_neg. f_equal. ring.
Qed.
Theorem ctanh_f64 (z : cplx f64) (t : cplx R) : cgood z -> Rabs (fval (re z)) <= 340 -> cmul t (cosh_c (cval z)) = sinh_c (cval z) ->
  4 * (a + b + 8) * uro * cosh (fval (re z)) <= cmod (cosh_c (cval z)) ->
  exists q, ctanh z = Ret q /\ cgood q /\ cmod (csub (cval q) t) <= 4 * (a + b + 11) * uro * (1 + cmod t) * (cosh (fval (re z)) / cmod (cosh_c (cval z))).
Proof.
  intros Gz Hy Ht Hc. destruct (csinh_f64 a b Ha Hb HE HC HS z Gz Hy) as (s & S1 & S2 & S3). destruct (ccosh_f64 a b Ha Hb HE HC HS z Gz Hy) as (c & C1 & C2 & C3). unfold ctanh. rewrite S1, C1. cbn [bind].
  destruct (cosh_big _ Hy) as (H1 & H2 & _). destruct (sinh_c_le (cval z) Hy) as (M1 & M2). replace (a + b + 11) with (a + b + 8 + 3) by ring. pose proof uro_pos as U.
  apply (quot_core (a + b + 8) (cosh (fval (re z))) s c (sinh_c (cval z))); try assumption; try lra; try (split; assumption).
  eapply Rle_trans; [exact C3|]. apply Rmult_le_compat_r; [lra|]. apply Rmult_le_compat_r; lra.
Qed.
Theorem ccoth_f64 (z : cplx f64) (t : cplx R) : cgood z -> Rabs (fval (re z)) <= 340 -> cmul t (sinh_c (cval z)) = cosh_c (cval z) ->
  4 * (a + b + 8) * uro * cosh (fval (re z)) <= cmod (sinh_c (cval z)) ->
  exists q, ccoth z = Ret q /\ cgood q /\ cmod (csub (cval q) t) <= 4 * (a + b + 11) * uro * (1 + cmod t) * (cosh (fval (re z)) / cmod (sinh_c (cval z))).
Proof.
  intros Gz Hy Ht Hc. destruct (csinh_f64 a b Ha Hb HE HC HS z Gz Hy) as (s & S1 & S2 & S3). destruct (ccosh_f64 a b Ha Hb HE HC HS z Gz Hy) as (c & C1 & C2 & C3). unfold ccoth. rewrite S1, C1. cbn [bind].
  destruct (cosh_big _ Hy) as (H1 & H2 & _). destruct (sinh_c_le (cval z) Hy) as (M1 & M2). replace (a + b + 11) with (a + b + 8 + 3) by ring. pose proof uro_pos as U.
  apply (quot_core (a + b + 8) (cosh (fval (re z))) c s (cosh_c (cval z))); try assumption; try lra; try (split; assumption).
  eapply Rle_trans; [exact C3|]. apply Rmult_le_compat_r; [lra|]. apply Rmult_le_compat_r; lra.
Qed.
Theorem csech_f64 (z : cplx f64) (t : cplx R) : cgood z -> Rabs (fval (re z)) <= 340 -> cmul t (cosh_c (cval z)) = mkC 1 0 ->
  4 * (a + b + 6) * uro * cosh (fval (re z)) <= cmod (cosh_c (cval z)) ->
  exists q, csech z = Ret q /\ cgood q /\ cmod (csub (cval q) t) <= 4 * (a + b + 9) * uro * (1 + cmod t) * (cosh (fval (re z)) / cmod (cosh_c (cval z))).
Proof.
  intros (Gx & Gy) Hx. destruct (fneg_good _ Gy) as (Gny & Eny).
  assert (Q : cosh_c (cval z) = cos_c (cval (mkC (neg (im z)) (re z)))) by (unfold cosh_c, cos_c, cval; cbn [re im]; rewrite Eny, cos_neg, sin_neg; f_equal; ring).
  rewrite Q. exact (csec_f64 (mkC (neg (im z)) (re z)) t (conj Gny Gx) Hx).
Qed.
End Quot.
(** The ranges contain 4 i for the circular functions, and 1 for the hyperbolic ones. *)
Lemma quot_ranges : let z : cplx f64 := mkC zero (int_as_f64 4) in let w : cplx f64 := mkC one zero in
  cgood z /\ Rabs (fval (im z)) <= 340 /\ 4 * (2 + 2 + 6) * uro * cosh (fval (im z)) <= cmod (sin_c (cval z)) /\ 4 * (2 + 2 + 6) * uro * cosh (fval (im z)) <= cmod (cos_c (cval z)) /\
  cgood w /\ Rabs (fval (re w)) <= 340 /\ 4 * (2 + 2 + 8) * uro * cosh (fval (re w)) <= cmod (sinh_c (cval w)) /\ 4 * (2 + 2 + 8) * uro * cosh (fval (re w)) <= cmod (cosh_c (cval w)).
Proof.
  intros z w. destruct (int_as_f64_ok 4) as (V & F & H); [cbn; lia|]. assert (Hi : fval (im z) = 4) by exact H. assert (Hr : fval (re z) = 0) by reflexivity.
  assert (Wr : fval (re w) = 1) by exact one_val. assert (Wi : fval (im w) = 0) by reflexivity.
  assert (X : forall y, 1 <= y -> 0 <= sinh y /\ cosh y <= 3 * sinh y /\ 1 <= cosh y).
  { intros y Hy. unfold sinh, cosh. pose proof (exp_ineq1_le y) as A. assert (B : exp (- y) * exp y = 1) by (rewrite <- exp_plus, Rplus_opp_l; apply exp_0). pose proof (exp_pos (- y)) as P.
    assert (exp (- y) <= / 2) by (rewrite exp_Ropp; apply Rinv_le_contravar; lra). lra. }
  assert (U : 4 * (2 + 2 + 8) * uro <= / 1000) by (pose proof uro_pos; rewrite uro_val; lra). pose proof uro_pos as U0.
  destruct (X 4 ltac:(lra)) as (A1 & A2 & A3). destruct (X 1 ltac:(lra)) as (B1 & B2 & B3).
  assert (P4 : 4 * (2 + 2 + 6) * uro * cosh 4 <= / 1000 * cosh 4) by (apply Rmult_le_compat_r; lra). assert (P1 : 4 * (2 + 2 + 8) * uro * cosh 1 <= / 1000 * cosh 1) by (apply Rmult_le_compat_r; lra).
  unfold sin_c, cos_c, sinh_c, cosh_c, cmod, cval. cbv beta iota delta [re im z w]. change (fval (re z)) with (fval (zero : f64)) in Hr. cbv beta iota delta [re im z w] in Hi, Hr, Wr, Wi.
  rewrite ?Hi, ?Hr, ?Wr, ?Wi, sin_0, cos_0.
  replace (0 * cosh 4 * (0 * cosh 4) + 1 * sinh 4 * (1 * sinh 4)) with (sinh 4 * sinh 4) by ring. replace (1 * cosh 4 * (1 * cosh 4) + - (0 * sinh 4) * - (0 * sinh 4)) with (cosh 4 * cosh 4) by ring.
  replace (sinh 1 * 1 * (sinh 1 * 1) + cosh 1 * 0 * (cosh 1 * 0)) with (sinh 1 * sinh 1) by ring. replace (cosh 1 * 1 * (cosh 1 * 1) + sinh 1 * 0 * (sinh 1 * 0)) with (cosh 1 * cosh 1) by ring.
  rewrite !sqrt_square by lra. split; [split; [split; reflexivity|split; assumption]|]. split; [rewrite Rabs_pos_eq; lra|]. split; [lra|]. split; [lra|]. split; [repeat split|]. split; [rewrite Rabs_pos_eq; lra|]. split; lra.
Qed.
(** Multiplication by -i is exact. *)
Lemma cmul_mi (s : cplx f64) : cgood s -> cmod (cval s) <= bpow radix2 1000 -> cgood (cmul (mkC zero (neg one)) s) /\ cval (cmul (mkC zero (neg one)) s) = cmul (mkC 0 (- 1)) (cval s).
Proof.
  intros (Gr & Gi) B. pose proof (re_le (cval s)) as R1. pose proof (im_le (cval s)) as R2. change (re (cval s)) with (fval (re s)) in R1. change (im (cval s)) with (fval (im s)) in R2.
  assert (B1 : bpow radix2 1000 <= bpow radix2 1023) by (apply bpow_le; lia). assert (V1 : fval (neg one : f64) = - 1) by (destruct (fneg_good (one : f64)) as (_ & ->); [repeat split|]; rewrite one_val; reflexivity).
  assert (G0 : fgood (zero : f64)) by (split; reflexivity). assert (G1 : fgood (neg one : f64)) by (split; reflexivity).
  assert (Z : forall x : f64, fgood x -> fgood (mul zero x) /\ fval (mul zero x) = 0).
  { intros x Gx. destruct (fmul_good zero x G0 Gx) as (A & E); [change (fval zero) with 0; rewrite Rmult_0_l, Rabs_R0; apply bpow_ge_0|]. split; [exact A|]. rewrite E. change (fval zero) with 0. rewrite Rmult_0_l. apply rnd_0. }
  assert (N : forall x : f64, fgood x -> Rabs (fval x) <= bpow radix2 1000 -> fgood (mul (neg one) x) /\ fval (mul (neg one) x) = - fval x).
  { intros x Gx Bx. destruct (fmul_good (neg one) x G1 Gx) as (A & E); [rewrite V1; replace (- 1 * fval x) with (- fval x) by ring; rewrite Rabs_Ropp; lra|]. split; [exact A|]. rewrite E, V1. replace (- 1 * fval x) with (- fval x) by ring.
    destruct (fneg_good _ Gx) as ((Vn & _) & En). rewrite <- En. now apply rnd_fval. }
  destruct (Z _ Gr) as (A1 & E1). destruct (Z _ Gi) as (A2 & E2). destruct (N _ Gr ltac:(lra)) as (A3 & E3). destruct (N _ Gi ltac:(lra)) as (A4 & E4).
  unfold cmul, cval. cbn [re im sub mul add R_ops].
  assert (X : fgood (sub (mul zero (re s)) (mul (neg one) (im s))) /\ fval (sub (mul zero (re s)) (mul (neg one) (im s))) = fval (im s)).
  { destruct A1 as (V & F), A4 as (V' & F'). destruct (fsub_round _ _ V V' F F') as (E & K); [apply no_ov; rewrite E1, E4; replace (0 - - fval (im s)) with (fval (im s)) by ring; lra|].
    split; [split; [now apply fvalid_sub|exact K]|]. rewrite E, E1, E4. replace (0 - - fval (im s)) with (fval (im s)) by ring. apply rnd_fval, Gi. }
  assert (Y : fgood (add (mul (neg one) (re s)) (mul zero (im s))) /\ fval (add (mul (neg one) (re s)) (mul zero (im s))) = - fval (re s)).
  { destruct A3 as (V & F), A2 as (V' & F'). destruct (fadd_round _ _ V V' F F') as (E & K); [apply no_ov; rewrite E3, E2, Rplus_0_r, Rabs_Ropp; lra|].
    split; [split; [now apply fvalid_add|exact K]|]. rewrite E, E2, Rplus_0_r. rewrite (rnd_fval _ V). exact E3. }
  destruct X as (X1 & X2), Y as (Y1 & Y2). split; [split; [exact X1|exact Y1]|]. change (mkC (fval (sub (mul zero (re s)) (mul (neg one) (im s)))) (fval (add (mul (neg one) (re s)) (mul zero (im s)))) = mkC (0 * fval (re s) - -1 * fval (im s)) (-1 * fval (re s) + 0 * fval (im s))). rewrite X2, Y2. f_equal; ring.
Qed.
(** csch as the code computes it: close to - 1 / sinh, the wrong sign. *)
Theorem ccsch_f64 (E : EOps f64) a b : 0 <= a <= 1000000 -> 0 <= b <= 1000000 -> exp_acc a texp -> trig_acc b tcos cos -> trig_acc b tsin sin ->
  forall (z : cplx f64) (t : cplx R), cgood z -> Rabs (fval (re z)) <= 340 -> cmul t (sinh_c (cval z)) = mkC (-1) 0 ->
  4 * (a + b + 6) * uro * cosh (fval (re z)) <= cmod (sinh_c (cval z)) ->
  exists q, ccsch z = Ret q /\ cgood q /\ cmod (csub (cval q) t) <= 4 * (a + b + 9) * uro * (1 + cmod t) * (cosh (fval (re z)) / cmod (sinh_c (cval z))).
Proof.
  intros Ha Hb HE HC HS z t (Gx & Gy) Hx Ht Hc. destruct (fneg_good _ Gy) as (Gny & Eny). set (z' := mkC (neg (im z)) (re z)). set (t' := mkC (- im t) (re t)).
  assert (Q : sin_c (cval z') = mkC (- im (sinh_c (cval z))) (re (sinh_c (cval z)))) by (unfold sinh_c, sin_c, cval, z'; cbn [re im]; rewrite Eny, cos_neg, sin_neg; f_equal; ring).
  assert (Mq : cmod (sin_c (cval z')) = cmod (sinh_c (cval z))) by (rewrite Q; unfold cmod; cbn [re im]; f_equal; ring).
  assert (Mt : cmod t' = cmod t) by (unfold cmod, t'; cbn [re im]; f_equal; ring).
  assert (Ht' : cmul t' (sin_c (cval z')) = mkC 1 0). { rewrite Q. revert Ht. generalize (sinh_c (cval z)). intros w H. unfold cmul, t' in *. cbn [re im sub mul add R_ops] in *. injection H as H1 H2. f_equal; lra. }
  destruct (@ccsc_f64 E a b Ha Hb HE HC HS z' t' (conj Gny Gx) Hx Ht') as (q & Q1 & Q2 & Q3); [rewrite Mq; exact Hc|]. rewrite Mq, Mt in Q3. change (fval (im z')) with (fval (re z)) in Q3.
  unfold ccsch. fold z'. rewrite Q1. cbn [bind]. eexists. split; [reflexivity|].
  set (h := cosh (fval (re z))) in *. set (S := sinh_c (cval z)) in *. destruct (cosh_big _ Hx) as (H1 & H2 & _). fold h in H1, H2. pose proof uro_pos as U.
  assert (hU : uro <= uro * h) by (rewrite <- (Rmult_1_r uro) at 1; apply Rmult_le_compat_l; lra). assert (AB : 0 <= (a + b) * (uro * h)) by (apply Rmult_le_pos; [lra|apply Rmult_le_pos; lra]).
  assert (S0 : 24 * (uro * h) <= cmod S) by lra. assert (SP : 0 < cmod S) by lra.
  assert (Tm : cmod t * cmod S = 1) by (rewrite <- cmod_mul, Ht; unfold cmod; cbn [re im]; replace (-1 * -1 + 0 * 0) with (1 * 1) by ring; apply sqrt_square; lra).
  assert (UI : bpow radix2 53 * uro = 1) by (unfold uro; rewrite <- bpow_plus; reflexivity).
  pose proof (bpow_gt_0 radix2 53) as BP.
  assert (Ub : cmod t <= bpow radix2 53). { apply Rmult_le_reg_r with (cmod S); [exact SP|]. rewrite Tm. apply Rle_trans with (bpow radix2 53 * uro); [lra|]. apply Rmult_le_compat_l; lra. }
  assert (Hb' : h / cmod S <= bpow radix2 53). { apply Rmult_le_reg_r with (cmod S); [exact SP|]. unfold Rdiv. rewrite Rmult_assoc, Rinv_l, Rmult_1_r by lra. apply Rle_trans with (bpow radix2 53 * (uro * h)); [rewrite <- Rmult_assoc, UI; lra|apply Rmult_le_compat_l; lra]. }
  assert (HP : 0 <= h / cmod S) by (apply Rlt_le, Rdiv_lt_0_compat; lra). pose proof (cmod_pos t) as TP.
  assert (B1 : 1 <= bpow radix2 53) by (change 1 with (bpow radix2 0); apply bpow_le; lia). assert (U2 : 4 * (a + b + 9) * uro <= 1) by (rewrite uro_val; lra).
  assert (Bq : cmod (cval q) <= bpow radix2 1000).
  { pose proof (cmod_near (cval q) t') as N. rewrite Mt in N. assert (X : 4 * (a + b + 9) * uro * (1 + cmod t) * (h / cmod S) <= 1 * (2 * bpow radix2 53) * bpow radix2 53) by (apply Rmult_le_compat; [apply Rmult_le_pos; [apply Rmult_le_pos; lra|lra]|exact HP|apply Rmult_le_compat; [apply Rmult_le_pos; lra|lra|exact U2|lra]|exact Hb']).
    assert (Y : 1 * (2 * bpow radix2 53) * bpow radix2 53 = bpow radix2 107) by (rewrite Rmult_1_l; change (2 * bpow radix2 53) with (bpow radix2 1 * bpow radix2 53); rewrite <- !bpow_plus; reflexivity).
    assert (bpow radix2 107 <= bpow radix2 999 /\ bpow radix2 53 <= bpow radix2 999) by (split; apply bpow_le; lia). assert (bpow radix2 1000 = 2 * bpow radix2 999) by (change 1000%Z with (1 + 999)%Z; rewrite bpow_plus; reflexivity). lra. }
  destruct (cmul_mi q Q2 Bq) as (G & V). split; [exact G|]. rewrite V.
  replace (cmod (csub (cmul (mkC 0 (-1)) (cval q)) t)) with (cmod (csub (cval q) t')); [exact Q3|].
  unfold cmod, csub, cmul, t'. cbn [re im sub mul add R_ops]. f_equal. ring.
Qed.
(** cot is computed as 1 / tan: two quotients. *)
Theorem ccot_f64 (E : EOps f64) a b : 0 <= a <= 1000000 -> 0 <= b <= 1000000 -> exp_acc a texp -> trig_acc b tcos cos -> trig_acc b tsin sin ->
  forall (z : cplx f64) (c : cplx R) (K : R), cgood z -> Rabs (fval (im z)) <= 340 -> cmul c (sin_c (cval z)) = cos_c (cval z) -> 0 < cmod (sin_c (cval z)) ->
  2 * (a + b + 9) * cosh (fval (im z)) <= K * cmod (cos_c (cval z)) -> K <= 3000000 -> 4 * K * uro * (1 + cmod c) <= 1 ->
  exists q, ccot z = Ret q /\ cgood q /\ cmod (csub (cval q) c) <= 4 * (K + 3) * uro * ((1 + cmod c) * (1 + cmod c)).
Proof.
  intros Ha Hb HE HC HS z c K Gz Hy Hc Ps HK K3 Kc. destruct (cosh_big _ Hy) as (H1 & H2 & _). destruct (sin_c_le (cval z) Hy) as (M1 & M2). change (im (cval z)) with (fval (im z)) in M1, M2.
  set (h := cosh (fval (im z))) in *. set (S := sin_c (cval z)) in *. set (C := cos_c (cval z)) in *. pose proof uro_pos as U.
  assert (AB : 0 <= (a + b) * h) by (apply Rmult_le_pos; lra). assert (K0 : 18 <= K).
  { destruct (Rle_dec 18 K) as [|n]; [assumption|exfalso]. assert (K * cmod C <= 18 * cmod C) by (apply Rmult_le_compat_r; [apply cmod_pos|lra]). pose proof (cmod_pos C). assert (C9 : cmod C < h \/ cmod C = h) by lra. destruct C9 as [L|L]; [lra|].
    rewrite L in HK. assert (K * h < 18 * h) by (apply Rmult_lt_compat_r; lra). lra. }
  assert (PC : 0 < cmod C). { destruct (Rle_lt_or_eq_dec 0 (cmod C) (cmod_pos C)) as [|e]; [assumption|exfalso]. rewrite <- e, Rmult_0_r in HK. lra. }
  assert (Hm : cmod c * cmod S = cmod C) by (rewrite <- cmod_mul, Hc; reflexivity).
  assert (c0 : 0 < cmod c). { destruct (Rle_lt_or_eq_dec 0 (cmod c) (cmod_pos c)) as [|e]; [assumption|exfalso]. rewrite <- e, Rmult_0_l in Hm. lra. }
  assert (D0 : 0 < re c * re c + im c * im c). { unfold cmod in c0. destruct (Rle_lt_dec (re c * re c + im c * im c) 0) as [L|L]; [|exact L]. rewrite sqrt_neg_0 in c0 by exact L. lra. }
  set (d := re c * re c + im c * im c) in *. set (t := mkC (re c / d) (- im c / d)).
  assert (Tc : cmul c t = mkC 1 0) by (unfold cmul, t; cbn [re im sub mul add R_ops]; f_equal; unfold d in *; field; lra).
  assert (Ht : cmul t C = S). { rewrite <- Hc. transitivity (cmul (cmul c t) S); [unfold cmul; cbn [re im sub mul add R_ops]; f_equal; ring|]. rewrite Tc. generalize S. intros [s1 s2]. unfold cmul; cbn [re im sub mul add R_ops]; f_equal; ring. }
  assert (Tm : cmod c * cmod t = 1) by (rewrite <- cmod_mul, Tc; unfold cmod; cbn [re im]; replace (1 * 1 + 0 * 0) with (1 * 1) by ring; apply sqrt_square; lra).
  assert (Cb : 4 * (a + b + 6) * uro * h <= cmod C).
  { assert (KU : 2 * K * uro <= 1) by (rewrite uro_val; lra). assert (2 * (a + b + 9) * h * (2 * uro) <= K * cmod C * (2 * uro)) by (apply Rmult_le_compat_r; lra). assert (2 * K * uro * cmod C <= 1 * cmod C) by (apply Rmult_le_compat_r; lra).
    assert (0 <= uro * h) by (apply Rmult_le_pos; lra). lra. }
  destruct (@ctan_f64 E a b Ha Hb HE HC HS z t Gz Hy Ht Cb) as (s & S1 & S2 & S3). fold h C in S3. unfold ccot. rewrite S1. cbn [bind].
  pose proof (cmod_pos t) as T0. assert (Hq : (a + b + 9) * (h / cmod C) <= K / 2).
  { apply Rmult_le_reg_r with (cmod C); [exact PC|]. unfold Rdiv. replace ((a + b + 9) * (h * / cmod C) * cmod C) with ((a + b + 9) * h) by (field; lra). lra. }
  assert (Er : cmod (csub (cval s) t) <= 2 * K * uro * (1 + cmod t)).
  { eapply Rle_trans; [exact S3|]. replace (4 * (a + b + 9) * uro * (1 + cmod t) * (h / cmod C)) with (4 * uro * (1 + cmod t) * ((a + b + 9) * (h / cmod C))) by ring. replace (2 * K * uro * (1 + cmod t)) with (4 * uro * (1 + cmod t) * (K / 2)) by field. apply Rmult_le_compat_l; [apply Rmult_le_pos; lra|exact Hq]. }
  destruct one_c as (G1 & V1 & N1).
  assert (tp : 0 < cmod t). { destruct (Rle_lt_or_eq_dec 0 (cmod t) T0) as [|e]; [assumption|exfalso]. rewrite <- e, Rmult_0_r in Tm. lra. }
  assert (tb : cmod t <= bpow radix2 490).
  { assert (tC : cmod t * cmod C = cmod S) by (rewrite <- cmod_mul, Ht; reflexivity). apply Rle_trans with K.
    - apply Rmult_le_reg_r with (cmod C); [exact PC|]. rewrite tC. lra.
    - apply Rle_trans with (bpow radix2 30); [simpl bpow; lra|apply bpow_le; lia]. }
  assert (B5 : bpow radix2 495 = 32 * bpow radix2 490) by (change 495%Z with (5 + 490)%Z; rewrite bpow_plus; reflexivity). assert (1 <= bpow radix2 490) by (change 1 with (bpow radix2 0); apply bpow_le; lia).
  assert (Kt : 4 * K * uro * (1 + cmod t) <= cmod t).
  { replace (4 * K * uro * (1 + cmod t)) with (4 * K * uro * (1 + cmod c) * cmod t) by (replace (1 + cmod t) with (cmod t * (1 + cmod c)) by lra; ring). rewrite <- (Rmult_1_l (cmod t)) at 2. apply Rmult_le_compat_r; lra. }
  destruct (quot_core K (1 + cmod t) cone s (mkC 1 0) t c) as (q & Q1 & Q2 & Q3); try assumption; try lra.
  - rewrite V1, csub_self. apply err_pos; lra.
  - exists q. split; [exact Q1|]. split; [exact Q2|]. replace ((1 + cmod c) * (1 + cmod c)) with ((1 + cmod c) * ((1 + cmod t) / cmod t)); [rewrite <- Rmult_assoc; exact Q3|]. f_equal.
    replace (1 + cmod t) with (cmod t * (1 + cmod c)) by lra. field. lra.
Qed.
(** 4 i is in the range of cot. *)
Lemma cot_range : let z : cplx f64 := mkC zero (int_as_f64 4) in let c := mkC 0 (- (cosh 4 / sinh 4)) in
  cgood z /\ Rabs (fval (im z)) <= 340 /\ cmul c (sin_c (cval z)) = cos_c (cval z) /\ 0 < cmod (sin_c (cval z)) /\ 2 * (2 + 2 + 9) * cosh (fval (im z)) <= 26 * cmod (cos_c (cval z)) /\ 4 * 26 * uro * (1 + cmod c) <= 1.
Proof.
  intros z c. destruct (int_as_f64_ok 4) as (V & F & H); [cbn; lia|]. assert (Hi : fval (im z) = 4) by exact H. assert (Hr : fval (re z) = 0) by reflexivity.
  assert (X : forall y, 1 <= y -> 0 < sinh y /\ cosh y <= 3 * sinh y /\ 1 <= cosh y).
  { intros y Hy. unfold sinh, cosh. pose proof (exp_ineq1_le y) as A. assert (B : exp (- y) * exp y = 1) by (rewrite <- exp_plus, Rplus_opp_l; apply exp_0). pose proof (exp_pos (- y)) as P.
    assert (exp (- y) <= / 2) by (rewrite exp_Ropp; apply Rinv_le_contravar; lra). lra. }
  destruct (X 4 ltac:(lra)) as (A1 & A2 & A3).
  unfold sin_c, cos_c, cmod, cval. cbv beta iota delta [re im z]. cbv beta iota delta [re im z] in Hi, Hr. rewrite ?Hi, ?Hr, sin_0, cos_0.
  replace (0 * cosh 4 * (0 * cosh 4) + 1 * sinh 4 * (1 * sinh 4)) with (sinh 4 * sinh 4) by ring. replace (1 * cosh 4 * (1 * cosh 4) + - (0 * sinh 4) * - (0 * sinh 4)) with (cosh 4 * cosh 4) by ring.
  rewrite !sqrt_square by lra. split; [split; [split; reflexivity|split; assumption]|]. split; [rewrite Rabs_pos_eq; lra|]. split; [unfold c, cmul; cbn [re im sub mul add R_ops]; f_equal; field; lra|]. split; [exact A1|]. split; [lra|].
  unfold c. cbn [re im]. set (r := cosh 4 / sinh 4). assert (R0 : 0 <= r <= 3). { unfold r. split; [apply Rlt_le, Rdiv_lt_0_compat; lra|]. apply Rmult_le_reg_r with (sinh 4); [lra|]. unfold Rdiv. rewrite Rmult_assoc, Rinv_l, Rmult_1_r by lra. exact A2. }
  replace (0 * 0 + - r * - r) with (r * r) by ring. rewrite sqrt_square by lra. apply Rle_trans with (4 * 26 * uro * 4); [apply Rmult_le_compat_l; [pose proof uro_pos; lra|lra]|rewrite uro_val; lra].
Qed.
