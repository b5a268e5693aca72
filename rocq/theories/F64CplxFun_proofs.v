(** Complex sine, cosine, hyperbolic functions and logarithm in binary64. *)
From Coq Require Import Arith Lia List Bool ZArith Reals Lra Psatz SpecFloat.
From Flocq Require Import Core IEEE754.BinarySingleNaN.
From Verif Require Import Outcome Scalar RealOps Elem_model Complex_model F64_spec F64Cplx_spec F64QR_spec F64CplxFun_spec
  F64Flocq F64Err_proofs F64Grid_proofs F64Euler_proofs F64QR_proofs F64Cplx_proofs F64Libm_proofs Int_model Int_proofs.
From Verif Require Complex_proofs.
Local Open Scope R_scope.

(** ** The modulus is a norm *)
Lemma cmod_add (a b : cplx R) : cmod (cadd a b) <= cmod a + cmod b.
Proof.
  pose proof (cmod_pos a) as A0. pose proof (cmod_pos b) as B0. apply cmod_le; [lra|].
  destruct a as [a1 a2], b as [b1 b2]. cbn [re im cadd]. pose proof (cauchy a1 a2 b1 b2) as Q. pose proof (cmod_sq (mkC a1 a2)) as S1. pose proof (cmod_sq (mkC b1 b2)) as S2. cbn [re im] in *.
  pose proof (Rle_abs (a1 * b1)). pose proof (Rle_abs (a2 * b2)). change (@add R R_ops) with Rplus. nra.
Qed.
Lemma cmod_tri (a b c : cplx R) : cmod (csub a c) <= cmod (csub a b) + cmod (csub b c).
Proof.
  replace (csub a c) with (cadd (csub a b) (csub b c)); [apply cmod_add|]. destruct a as [a1 a2], b as [b1 b2], c as [c1 c2]. unfold cadd, csub. cbn [re im]. f_equal; change (@add R R_ops) with Rplus; change (@sub R R_ops) with Rminus; ring.
Qed.
Lemma cmod_near (a b : cplx R) : cmod a <= cmod b + cmod (csub a b).
Proof.
  replace a with (cadd b (csub a b)) at 1; [apply cmod_add|]. destruct a as [a1 a2], b as [b1 b2]. unfold cadd, csub. cbn [re im]. f_equal; change (@add R R_ops) with Rplus; change (@sub R R_ops) with Rminus; ring.
Qed.
Lemma cmod_sub (a b : cplx R) : cmod (csub a b) <= cmod a + cmod b.
Proof.
  replace (cmod b) with (cmod (cneg b)) by (unfold cmod; f_equal; destruct b as [b1 b2]; cbn [re im cneg]; change (@neg R R_ops) with Ropp; ring).
  replace (csub a b) with (cadd a (cneg b)); [apply cmod_add|]. destruct a as [a1 a2], b as [b1 b2]. unfold cadd, csub, cneg. cbn [re im]. f_equal.
Qed.
Lemma cmod_exp (z : cplx R) : cmod (cexp z) = exp (re z).
Proof.
  destruct z as [x y]. unfold cmod, cexp. cbn [re im]. change (@texp R R_eops x) with (exp x). change (@tcos R R_eops y) with (cos y). change (@tsin R R_eops y) with (sin y). change (@mul R R_ops) with Rmult.
  replace (exp x * cos y * (exp x * cos y) + exp x * sin y * (exp x * sin y)) with (exp x * exp x * (Rsqr (sin y) + Rsqr (cos y))) by (unfold Rsqr; ring).
  rewrite sin2_cos2, Rmult_1_r. apply sqrt_square. left. apply exp_pos.
Qed.
Lemma exp_340 : exp 340 <= bpow radix2 495.
Proof.
  replace 340 with (INR 340 * 1) by (rewrite INR_IZR_INZ; simpl; ring). rewrite exp_pow_n. change 340%nat with (68 * 5)%nat. rewrite pow_mult.
  assert (H : exp 1 ^ 68 <= bpow radix2 99).
  { apply Rle_trans with ((274 / 100) ^ 68); [apply pow_incr; split; [left; apply exp_pos|exact exp_1_le]|]. simpl bpow. lra. }
  apply Rle_trans with (bpow radix2 99 ^ 5); [apply pow_incr; split; [apply pow_le; left; apply exp_pos|exact H]|].
  right. replace 495%Z with (99 * Z.of_nat 5)%Z by reflexivity. generalize 5%nat. intro n. induction n as [|n IH]; [reflexivity|].
  change (bpow radix2 99 ^ S n) with (bpow radix2 99 * bpow radix2 99 ^ n). rewrite IH, <- bpow_plus. f_equal. lia.
Qed.
Lemma exp_mono x y : x <= y -> exp x <= exp y.
Proof. intros [H| ->]; [left; now apply exp_increasing|lra]. Qed.
Lemma uro_small : uro <= / 1000000000000000.
Proof. unfold uro. simpl bpow. lra. Qed.

Lemma cosh_big y : Rabs y <= 340 -> 1 <= cosh y /\ cosh y <= bpow radix2 495 /\ Rabs (sinh y) <= cosh y.
Proof.
  intros Hy. assert (Hy2 : - 340 <= y <= 340) by (revert Hy; unfold Rabs; destruct Rcase_abs; lra).
  pose proof (exp_pos y) as P1. pose proof (exp_pos (- y)) as P2. pose proof (exp_mono y 340 ltac:(lra)) as M1. pose proof (exp_mono (- y) 340 ltac:(lra)) as M2. pose proof exp_340 as M3.
  assert (PR : exp (- y) * exp y = 1) by (rewrite <- exp_plus; replace (- y + y) with 0 by ring; exact exp_0).
  unfold cosh, sinh. split; [pose proof (Rle_0_sqr (exp y - exp (- y))) as Q; unfold Rsqr in Q; nra|]. split; [lra|]. apply Rabs_le. lra.
Qed.

Section Fun.
Context {E : EOps f64}.
Variables (a b : R).
Hypothesis (Ha : 0 <= a <= 1000000) (Hb : 0 <= b <= 1000000) (HE : exp_acc a texp) (HC : trig_acc b tcos cos) (HS : trig_acc b tsin sin).

(** Half of a sum or difference of two exponentials. *)
Lemma half_core (d w : cplx f64) (D Dh : cplx R) er C : cgood d -> cgood w -> cmod (cval w) = 2 -> cbelow (bpow radix2 510) w -> cabove (bpow radix2 (-500)) w ->
  2 <= C -> C <= bpow radix2 496 -> cmod D <= C -> 0 <= er -> er <= 2 * (a + b + 1) * uro * C + 4 * eta64 -> cmod (csub Dh D) <= er -> cmod (csub (cval d) Dh) <= uro * cmod Dh ->
  exists q e, cdiv d w = Ret q /\ cgood q /\ cdiv (cval d) (cval w) = Ret e /\
    cmod (csub (cval q) e) + cmod (csub (cval d) D) / 2 <= (a + b + 6) * uro * C.
Proof.
  intros Gd Gw W2 Bw Aw C2 C5 HD E0 E1 H1 H2. pose proof uro_pos as U. pose proof uro_small as U1. pose proof eta64_pos as T0. pose proof eta_uro_2 as T1.
  assert (T2 : eta64 <= / 1000 * uro). { eapply Rle_trans; [exact T1|]. rewrite Rmult_comm. apply Rmult_le_compat_r; [lra|]. apply Rle_trans with (bpow radix2 (-10)); [apply bpow_le; lia|simpl bpow; lra]. }
  assert (UC : 2 * uro <= uro * C) by (rewrite (Rmult_comm 2); apply Rmult_le_compat_l; lra).
  assert (P : (a + b + 1) * uro <= / 1000000) by nra.
  assert (E2 : er <= / 100000 * C). { assert ((a + b + 1) * uro * C <= / 1000000 * C) by (apply Rmult_le_compat_r; lra). lra. }
  pose proof (cmod_near Dh D) as N1. pose proof (cmod_near (cval d) Dh) as N2. pose proof (cmod_pos Dh) as N0. pose proof (cmod_tri (cval d) Dh D) as N3.
  assert (L1 : cmod Dh <= 10001 / 10000 * C) by lra. assert (UD : uro * cmod Dh <= 10001 / 10000 * (uro * C)) by (replace (10001 / 10000 * (uro * C)) with (uro * (10001 / 10000 * C)) by ring; apply Rmult_le_compat_l; lra).
  assert (USC : uro * C <= / 10000 * C) by (apply Rmult_le_compat_r; lra). assert (L2 : cmod (cval d) <= 1001 / 1000 * C) by lra.
  assert (B : bpow radix2 500 = 16 * bpow radix2 496) by (change 500%Z with (4 + 496)%Z; rewrite bpow_plus; reflexivity).
  destruct (cdiv_f64 d w Gd Gw) as (q & e & Q1 & Q2 & Q3 & Q4); [|exact Bw|exact Aw|].
  { pose proof (re_le (cval d)). pose proof (im_le (cval d)). cbn [cval re im] in *. split; lra. }
  exists q, e. split; [exact Q1|]. split; [exact Q2|]. split; [exact Q3|]. rewrite W2 in Q4.
  assert (UL : uro * cmod (cval d) <= 1001 / 1000 * (uro * C)) by (replace (1001 / 1000 * (uro * C)) with (uro * (1001 / 1000 * C)) by ring; apply Rmult_le_compat_l; lra). nra.
Qed.
Lemma exp_pair (z : cplx f64) : cgood z -> Rabs (fval (im z)) <= 340 ->
  let x := fval (re z) in let y := fval (im z) in let C := exp (- y) + exp y in
  let za := cexp (mkC (neg (im z)) (re z)) in let zb := cexp (mkC (im z) (neg (re z))) in
  let A := cexp (mkC (- y) x) in let B := cexp (mkC y (- x)) in
  cgood za /\ cgood zb /\ 2 <= C /\ C <= bpow radix2 496 /\ cmod A + cmod B = C /\
  cmod (csub (cval za) A) + cmod (csub (cval zb) B) <= 2 * (a + b + 1) * uro * C + 4 * eta64 /\
  Rabs (fval (re za)) <= bpow radix2 500 /\ Rabs (fval (im za)) <= bpow radix2 500 /\ Rabs (fval (re zb)) <= bpow radix2 500 /\ Rabs (fval (im zb)) <= bpow radix2 500.
Proof.
  intros (Gx & Gy) Hy x y C za zb A B. destruct (fneg_good _ Gx) as (Gnx & Enx). destruct (fneg_good _ Gy) as (Gny & Eny).
  pose proof uro_pos as U. pose proof uro_small as U1. pose proof eta64_pos as T0. pose proof eta_uro_2 as T1.
  destruct (cexp_f64 E a b (mkC (neg (im z)) (re z)) Ha Hb HE HC HS) as (G1 & K1). { split; assumption. } { cbn [re]. rewrite Eny, Rabs_Ropp. lra. }
  destruct (cexp_f64 E a b (mkC (im z) (neg (re z))) Ha Hb HE HC HS) as (G2 & K2). { split; assumption. } { cbn [re]. lra. }
  fold za in G1, K1. fold zb in G2, K2. unfold cval at 2 in K1. unfold cval at 2 in K2. cbn [re im] in K1, K2. rewrite Eny in K1. rewrite Enx in K2.
  change (cexp (mkC (- fval (im z)) (fval (re z)))) with A in K1. change (cexp (mkC (fval (im z)) (- fval (re z)))) with B in K2. fold y in K1, K2.
  assert (MA : cmod A = exp (- y)) by apply cmod_exp. assert (MB : cmod B = exp y) by apply cmod_exp.
  assert (Hy2 : - 340 <= y <= 340) by (revert Hy; fold y; unfold Rabs; destruct Rcase_abs; lra).
  pose proof (exp_pos y) as P1. pose proof (exp_pos (- y)) as P2. pose proof (exp_mono y 340 ltac:(lra)) as M1. pose proof (exp_mono (- y) 340 ltac:(lra)) as M2. pose proof exp_340 as M3.
  assert (B6 : bpow radix2 496 = 2 * bpow radix2 495) by (change 496%Z with (1 + 495)%Z; rewrite bpow_plus; reflexivity).
  assert (B5 : bpow radix2 500 = 32 * bpow radix2 495) by (change 500%Z with (5 + 495)%Z; rewrite bpow_plus; reflexivity).
  assert (BP : 1 <= bpow radix2 495) by (change 1 with (bpow radix2 0); apply bpow_le; lia).
  assert (PR : exp (- y) * exp y = 1) by (rewrite <- exp_plus; replace (- y + y) with 0 by ring; exact exp_0).
  assert (C2 : 2 <= C). { unfold C. pose proof (Rle_0_sqr (exp y - exp (- y))) as Q. unfold Rsqr in Q. nra. }
  assert (T2 : eta64 <= / 1000 * uro). { eapply Rle_trans; [exact T1|]. rewrite Rmult_comm. apply Rmult_le_compat_r; [lra|]. apply Rle_trans with (bpow radix2 (-10)); [apply bpow_le; lia|simpl bpow; lra]. }
  assert (P : 2 * (a + b + 1) * uro <= / 100000) by nra.
  assert (X1 : 2 * (a + b + 1) * uro * exp (- y) <= / 100000 * exp (- y)) by (apply Rmult_le_compat_r; lra).
  assert (X2 : 2 * (a + b + 1) * uro * exp y <= / 100000 * exp y) by (apply Rmult_le_compat_r; lra).
  pose proof (cmod_near (cval za) A) as N1. pose proof (cmod_near (cval zb) B) as N2. rewrite MA in N1. rewrite MB in N2.
  pose proof (re_le (cval za)) as R1. pose proof (im_le (cval za)) as R2. pose proof (re_le (cval zb)) as R3. pose proof (im_le (cval zb)) as R4. change (re (cval za)) with (fval (re za)) in R1. change (im (cval za)) with (fval (im za)) in R2. change (re (cval zb)) with (fval (re zb)) in R3. change (im (cval zb)) with (fval (im zb)) in R4.
  split; [exact G1|]. split; [exact G2|]. split; [exact C2|]. split; [unfold C; lra|]. split; [unfold C; lra|]. split; [unfold C; lra|]. repeat split; lra.
Qed.
Lemma two_val : fval (add one one : f64) = 2.
Proof. change (add one one : f64) with (int_as_f64 2). apply (int_as_f64_ok 2). cbn. lia. Qed.
Lemma one_val : fval (one : f64) = 1.
Proof. change (one : f64) with (int_as_f64 1). apply (int_as_f64_ok 1). cbn. lia. Qed.
Lemma two_i : cgood (mkC zero (add one one) : cplx f64) /\ cval (mkC zero (add one one)) = mkC 0 2.
Proof. repeat split. unfold cval. cbn [re im]. f_equal. exact two_val. Qed.
Lemma two_r : cgood (mkC (add one one) zero : cplx f64) /\ cval (mkC (add one one) zero) = mkC 2 0.
Proof. repeat split. unfold cval. cbn [re im]. f_equal. exact two_val. Qed.
Lemma add_good x y : fgood x -> fgood y -> Rabs (fval x) <= bpow radix2 500 -> Rabs (fval y) <= bpow radix2 500 -> fgood (add x y) /\ fgood (sub x y).
Proof.
  intros (V1 & F1) (V2 & F2) B1 B2. assert (B : 2 * bpow radix2 500 <= bpow radix2 1023) by (change (2 * bpow radix2 500) with (bpow radix2 1 * bpow radix2 500); rewrite <- bpow_plus; apply bpow_le; lia).
  destruct (fadd_ok x y V1 V2 F1 F2) as (A1 & A2 & _). { pose proof (Rabs_triang (fval x) (fval y)). lra. }
  destruct (fsub_ok x y V1 V2 F1 F2) as (S1 & S2 & _). { pose proof (Rabs_triang (fval x) (- fval y)). rewrite Rabs_Ropp in *. unfold Rminus. lra. }
  repeat split; assumption.
Qed.
Lemma range_two (w : cplx f64) : cval w = mkC 0 2 \/ cval w = mkC 2 0 -> cmod (cval w) = 2 /\ cbelow (bpow radix2 510) w /\ cabove (bpow radix2 (-500)) w.
Proof.
  assert (B : 2 <= bpow radix2 510) by (change 2 with (bpow radix2 1); apply bpow_le; lia). assert (S : bpow radix2 (-500) <= 2) by (change 2 with (bpow radix2 1); apply bpow_le; lia).
  assert (S2 : sqrt (2 * 2) = 2) by (apply sqrt_square; lra). unfold cbelow, cabove. destruct w as [p q]. unfold cval. cbn [re im]. intros [H|H]; injection H as -> ->; unfold cmod; cbn [re im]; rewrite ?Rmult_0_l, ?Rmult_0_r, ?Rplus_0_l, ?Rplus_0_r, !Rabs_R0;
    rewrite (Rabs_pos_eq 2) by lra; (split; [exact S2|]); (split; [split; lra|]); [rewrite Rmax_right by lra|rewrite Rmax_left by lra]; exact S.
Qed.
Lemma rdiv_2i (d : cplx R) : cdiv d (mkC 0 2) = Ret (mkC (im d / 2) (- re d / 2)).
Proof.
  unfold cdiv. cbn [add mul zero neg R_ops eqb re im cmul sub div]. destruct (R_eqb (0 * 0 + 2 * 2) 0) eqn:Z; [apply R_eqb_true in Z; exfalso; lra|]. do 2 f_equal; field.
Qed.
Lemma rdiv_2 (d : cplx R) : cdiv d (mkC 2 0) = Ret (mkC (re d / 2) (im d / 2)).
Proof.
  unfold cdiv. cbn [add mul zero neg R_ops eqb re im cmul sub div]. destruct (R_eqb (2 * 2 + 0 * 0) 0) eqn:Z; [apply R_eqb_true in Z; exfalso; lra|]. do 2 f_equal; field.
Qed.
Lemma cmod_half (x y u v : R) : u * u + v * v = (x * x + y * y) / 4 -> cmod (mkC u v) = cmod (mkC x y) / 2.
Proof.
  intros H. unfold cmod. cbn [re im]. rewrite H. replace ((x * x + y * y) / 4) with (Rsqr (/ 2) * (x * x + y * y)) by (unfold Rsqr; field).
  rewrite sqrt_mult_alt by apply Rle_0_sqr. rewrite sqrt_Rsqr by lra. lra.
Qed.
Theorem csin_f64 (z : cplx f64) : cgood z -> Rabs (fval (im z)) <= 340 ->
  exists s, csin z = Ret s /\ cgood s /\ cmod (csub (cval s) (sin_c (cval z))) <= 2 * (a + b + 6) * uro * cosh (fval (im z)).
Proof.
  intros Gz Hy. destruct (exp_pair z Gz Hy) as (Ga & Gb & C2 & C5 & MC & Er & L1 & L2 & L3 & L4). set (x := fval (re z)) in *. set (y := fval (im z)) in *.
  set (za := cexp (mkC (neg (im z)) (re z))) in *. set (zb := cexp (mkC (im z) (neg (re z)))) in *. set (A := cexp (mkC (- y) x)) in *. set (B := cexp (mkC y (- x))) in *.
  assert (Gd : cgood (csub za zb)). { destruct Ga, Gb. split; [now apply (add_good (re za) (re zb))|now apply (add_good (im za) (im zb))]. }
  destruct two_i as (Gw & Ew). destruct (range_two _ (or_introl Ew)) as (W2 & Bw & Aw).
  destruct (half_core (csub za zb) (mkC zero (add one one)) (csub A B) (csub (cval za) (cval zb)) (cmod (csub (cval za) A) + cmod (csub (cval zb) B)) (exp (- y) + exp y) Gd Gw W2 Bw Aw C2 C5) as (q & e & Q1 & Q2 & Q3 & Q4).
  - rewrite <- MC. apply cmod_sub.
  - apply Rplus_le_le_0_compat; apply cmod_pos.
  - exact Er.
  - replace (csub (csub (cval za) (cval zb)) (csub A B)) with (csub (csub (cval za) A) (csub (cval zb) B)); [apply cmod_sub|]. unfold csub. cbn [re im sub R_ops]. f_equal; ring.
  - now apply csub_f64.
  - exists q. split; [exact Q1|]. split; [exact Q2|]. set (d := cval (csub za zb)) in *. assert (Ee : e = mkC (im d / 2) (- re d / 2)) by (rewrite Ew, rdiv_2i in Q3; congruence). subst e. clear Q3.
    pose proof (cmod_tri (cval q) (mkC (im d / 2) (- re d / 2)) (sin_c (cval z))) as T.
    assert (K : cmod (csub (mkC (im d / 2) (- re d / 2)) (sin_c (cval z))) = cmod (csub d (csub A B)) / 2).
    { unfold csub at 1 2. cbn [re im sub R_ops]. apply cmod_half. unfold A, B, sin_c, cval, csub, cexp, cosh, sinh. cbn [re im sub mul R_ops texp tcos tsin R_eops]. fold x y. rewrite cos_neg, sin_neg. field. }
    rewrite K in T. replace (2 * (a + b + 6) * uro * cosh y) with ((a + b + 6) * uro * (exp (- y) + exp y)) by (unfold cosh; field). lra.
Qed.
Theorem ccos_f64 (z : cplx f64) : cgood z -> Rabs (fval (im z)) <= 340 ->
  exists s, ccos z = Ret s /\ cgood s /\ cmod (csub (cval s) (cos_c (cval z))) <= 2 * (a + b + 6) * uro * cosh (fval (im z)).
Proof.
  intros Gz Hy. destruct (exp_pair z Gz Hy) as (Ga & Gb & C2 & C5 & MC & Er & L1 & L2 & L3 & L4). set (x := fval (re z)) in *. set (y := fval (im z)) in *.
  set (za := cexp (mkC (neg (im z)) (re z))) in *. set (zb := cexp (mkC (im z) (neg (re z)))) in *. set (A := cexp (mkC (- y) x)) in *. set (B := cexp (mkC y (- x))) in *.
  assert (Gd : cgood (cadd za zb)). { destruct Ga, Gb. split; [now apply (add_good (re za) (re zb))|now apply (add_good (im za) (im zb))]. }
  destruct two_r as (Gw & Ew). destruct (range_two _ (or_intror Ew)) as (W2 & Bw & Aw).
  destruct (half_core (cadd za zb) (mkC (add one one) zero) (cadd A B) (cadd (cval za) (cval zb)) (cmod (csub (cval za) A) + cmod (csub (cval zb) B)) (exp (- y) + exp y) Gd Gw W2 Bw Aw C2 C5) as (q & e & Q1 & Q2 & Q3 & Q4).
  - rewrite <- MC. apply cmod_add.
  - apply Rplus_le_le_0_compat; apply cmod_pos.
  - exact Er.
  - replace (csub (cadd (cval za) (cval zb)) (cadd A B)) with (cadd (csub (cval za) A) (csub (cval zb) B)); [apply cmod_add|]. unfold csub, cadd. cbn [re im sub add R_ops]. f_equal; ring.
  - now apply cadd_f64.
  - exists q. split; [exact Q1|]. split; [exact Q2|]. set (d := cval (cadd za zb)) in *. assert (Ee : e = mkC (re d / 2) (im d / 2)) by (rewrite Ew, rdiv_2 in Q3; congruence). subst e. clear Q3.
    pose proof (cmod_tri (cval q) (mkC (re d / 2) (im d / 2)) (cos_c (cval z))) as T.
    assert (K : cmod (csub (mkC (re d / 2) (im d / 2)) (cos_c (cval z))) = cmod (csub d (cadd A B)) / 2).
    { unfold csub at 1 2. cbn [re im sub R_ops]. apply cmod_half. unfold A, B, cos_c, cval, cadd, cexp, cosh, sinh. cbn [re im add mul R_ops texp tcos tsin R_eops]. fold x y. rewrite cos_neg, sin_neg. field. }
    rewrite K in T. replace (2 * (a + b + 6) * uro * cosh y) with ((a + b + 6) * uro * (exp (- y) + exp y)) by (unfold cosh; field). lra.
Qed.
Lemma cmod_trig t u v p q : Rabs u <= t -> Rabs v <= t -> p * p + q * q = 1 -> cmod (mkC (p * u) (q * v)) <= t.
Proof.
  intros Hu Hv H. pose proof (Rabs_pos u). pose proof (sq_of_abs u t Hu). pose proof (sq_of_abs v t Hv). pose proof (Rle_0_sqr p). pose proof (Rle_0_sqr q). unfold Rsqr in *.
  apply cmod_le; [lra|]. cbn [re im]. assert (p * p * (u * u) <= p * p * (t * t)) by (apply Rmult_le_compat_l; lra). assert (q * q * (v * v) <= q * q * (t * t)) by (apply Rmult_le_compat_l; lra).
  assert (p * p * (t * t) + q * q * (t * t) = t * t) by (rewrite <- Rmult_plus_distr_r, H; ring). lra.
Qed.
Lemma sin_c_le z : Rabs (im z) <= 340 -> cmod (sin_c z) <= cosh (im z) /\ cmod (cos_c z) <= cosh (im z).
Proof.
  intros H. destruct (cosh_big _ H) as (C1 & _ & S). pose proof (sin2_cos2 (re z)) as Q. unfold Rsqr in Q. assert (Rabs (cosh (im z)) <= cosh (im z)) by (rewrite Rabs_pos_eq by lra; lra). split.
  - apply cmod_trig; [assumption|assumption|lra].
  - unfold cos_c. replace (- (sin (re z) * sinh (im z))) with (- sin (re z) * sinh (im z)) by ring. apply cmod_trig; [assumption|assumption|lra].
Qed.
Theorem ccosh_f64 (z : cplx f64) : cgood z -> Rabs (fval (re z)) <= 340 ->
  exists s, ccosh z = Ret s /\ cgood s /\ cmod (csub (cval s) (cosh_c (cval z))) <= 2 * (a + b + 6) * uro * cosh (fval (re z)).
Proof.
  intros (Gx & Gy) Hx. destruct (fneg_good _ Gy) as (Gny & Eny). destruct (ccos_f64 (mkC (neg (im z)) (re z))) as (s & S1 & S2 & S3); [split; assumption|exact Hx|].
  exists s. split; [exact S1|]. split; [exact S2|]. cbn [re im] in S3. replace (cosh_c (cval z)) with (cos_c (cval (mkC (neg (im z)) (re z)))); [exact S3|].
  unfold cosh_c, cos_c, cval. cbn [re im]. rewrite Eny, cos_neg, sin_neg. f_equal; ring.
Qed.
Theorem csinh_f64 (z : cplx f64) : cgood z -> Rabs (fval (re z)) <= 340 ->
  exists s, csinh z = Ret s /\ cgood s /\ cmod (csub (cval s) (sinh_c (cval z))) <= 2 * (a + b + 8) * uro * cosh (fval (re z)).
Proof.
  intros (Gx & Gy) Hx. destruct (fneg_good _ Gy) as (Gny & Eny). destruct (csin_f64 (mkC (neg (im z)) (re z))) as (s & S1 & S2 & S3); [split; assumption|exact Hx|].
  cbn [re im] in S3. unfold csinh. rewrite S1. cbn [bind]. eexists. split; [reflexivity|].
  set (x := fval (re z)) in *. destruct (cosh_big x Hx) as (C1 & C2 & _). pose proof uro_pos as U. pose proof uro_small as U1. pose proof eta64_pos as T0. pose proof eta_uro_2 as T1.
  assert (T2 : eta64 <= / 1000 * uro). { eapply Rle_trans; [exact T1|]. rewrite Rmult_comm. apply Rmult_le_compat_r; [lra|]. apply Rle_trans with (bpow radix2 (-10)); [apply bpow_le; lia|simpl bpow; lra]. }
  set (SC := sin_c (cval (mkC (neg (im z)) (re z)))) in *. assert (M : cmod SC <= cosh x) by (apply (sin_c_le (cval (mkC (neg (im z)) (re z)))); exact Hx).
  assert (P : 2 * (a + b + 6) * uro <= / 100000) by nra. assert (PC : 2 * (a + b + 6) * uro * cosh x <= / 100000 * cosh x) by (apply Rmult_le_compat_r; lra).
  pose proof (cmod_near (cval s) SC) as N. assert (L : cmod (cval s) <= 1001 / 1000 * cosh x) by lra.
  assert (B5 : bpow radix2 500 = 32 * bpow radix2 495) by (change 500%Z with (5 + 495)%Z; rewrite bpow_plus; reflexivity).
  pose proof (re_le (cval s)) as R1. pose proof (im_le (cval s)) as R2. change (re (cval s)) with (fval (re s)) in R1. change (im (cval s)) with (fval (im s)) in R2.
  assert (Gm : cgood (mkC zero (neg one) : cplx f64)) by (repeat split). assert (V1 : fval (neg one : f64) = - 1) by (destruct (fneg_good (one : f64)) as (_ & ->); [repeat split|]; rewrite one_val; reflexivity).
  assert (Vm : cval (mkC zero (neg one)) = mkC 0 (- 1)) by (unfold cval; cbn [re im]; now rewrite V1).
  assert (Mm : cmod (mkC 0 (- 1)) = 1) by (unfold cmod; cbn [re im]; replace (0 * 0 + -1 * -1) with (1 * 1) by ring; apply sqrt_square; lra).
  assert (prod : forall u v : f64, fgood u -> fgood v -> Rabs (fval u) <= 1 -> Rabs (fval v) <= bpow radix2 496 -> fgood (mul u v) /\ Rabs (fval (mul u v)) <= bpow radix2 500).
  { intros u v (Vu & Fu) (Vv & Fv) Bu Bv. assert (Puv : Rabs (fval u * fval v) <= bpow radix2 496). { rewrite Rabs_mult. pose proof (Rabs_pos (fval u)). pose proof (Rabs_pos (fval v)). apply Rle_trans with (1 * Rabs (fval v)); [apply Rmult_le_compat_r; lra|lra]. }
    assert (B6 : bpow radix2 500 = 16 * bpow radix2 496) by (change 500%Z with (4 + 496)%Z; rewrite bpow_plus; reflexivity). assert (1 <= bpow radix2 496) by (change 1 with (bpow radix2 0); apply bpow_le; lia).
    destruct (fmul_ok u v Vu Vv Fu Fv) as (W1 & W2 & W3). { eapply Rle_trans; [exact Puv|]. apply bpow_le. lia. } split; [split; assumption|].
    pose proof (Rabs_pos (fval u * fval v)). assert (uro * Rabs (fval u * fval v) <= 1 * Rabs (fval u * fval v)) by (apply Rmult_le_compat_r; lra). pose proof (Rabs_triang_inv (fval (mul u v)) (fval u * fval v)). lra. }
  assert (Z1 : Rabs (fval (zero : f64)) <= 1) by (change (fval zero) with 0; rewrite Rabs_R0; lra). assert (Z2 : Rabs (fval (neg one : f64)) <= 1) by (rewrite V1; apply Rabs_le; lra).
  assert (B7 : bpow radix2 496 = 2 * bpow radix2 495) by (change 496%Z with (1 + 495)%Z; rewrite bpow_plus; reflexivity).
  destruct Gm as (G0 & Gn). destruct S2 as (Gr & Gi).
  destruct (prod _ _ G0 Gr Z1 ltac:(lra)) as (A1 & A2). destruct (prod _ _ Gn Gi Z2 ltac:(lra)) as (A3 & A4). destruct (prod _ _ G0 Gi Z1 ltac:(lra)) as (A5 & A6). destruct (prod _ _ Gn Gr Z2 ltac:(lra)) as (A7 & A8).
  assert (Gp : cgood (cmul (mkC zero (neg one)) s)). { unfold cmul. cbn [re im]. split; cbn [re im]; [apply (add_good _ _ A1 A3 A2 A4)|apply add_good; assumption]. }
  split; [exact Gp|]. pose proof (cmul_f64 (mkC zero (neg one)) s (conj G0 Gn) (conj Gr Gi) Gp) as K. rewrite Vm, Mm in K.
  pose proof (cmod_tri (cval (cmul (mkC zero (neg one)) s)) (cmul (mkC 0 (- 1)) (cval s)) (sinh_c (cval z))) as T.
  assert (K2 : cmod (csub (cmul (mkC 0 (- 1)) (cval s)) (sinh_c (cval z))) = cmod (csub (cval s) SC)).
  { unfold cmod. f_equal. unfold SC, sin_c, sinh_c, cmul, csub, cval. cbn [re im sub mul add R_ops]. rewrite Eny, sin_neg, cos_neg. ring. }
  rewrite K2 in T. assert (uro * cmod (cval s) <= 1001 / 1000 * (uro * cosh x)) by (replace (1001 / 1000 * (uro * cosh x)) with (uro * (1001 / 1000 * cosh x)) by ring; apply Rmult_le_compat_l; lra).
  assert (uro <= uro * cosh x) by (rewrite <- (Rmult_1_r uro) at 1; apply Rmult_le_compat_l; lra). lra.
Qed.
(** Tangent: the quotient, away from the zeros of the cosine. *)
Lemma cmod_mul (u v : cplx R) : cmod (cmul u v) = cmod u * cmod v.
Proof.
  destruct u as [u1 u2], v as [v1 v2]. unfold cmod. cbn [re im cmul sub mul add R_ops]. rewrite <- sqrt_mult_alt by (pose proof (Rle_0_sqr u1); pose proof (Rle_0_sqr u2); unfold Rsqr in *; lra). f_equal. ring.
Qed.
Lemma cdiv_back (u v e : cplx R) : cdiv u v = Ret e -> re v * re v + im v * im v <> 0 -> cmul e v = u.
Proof.
  destruct u as [u1 u2], v as [v1 v2], e as [e1 e2]. unfold cdiv. cbn [re im add mul zero neg R_ops eqb cmul sub div]. intros Q D0. destruct (R_eqb (v1 * v1 + v2 * v2) 0) eqn:Z; [discriminate|].
  injection Q as <- <-. unfold cmul. cbn [add mul neg R_ops re im sub div]. f_equal; field; exact D0.
Qed.
Lemma cabove_mod (w : cplx f64) t : 2 * t <= cmod (cval w) -> cabove t w.
Proof.
  intros H. unfold cabove. set (m := Rmax _ _). assert (M : cmod (cval w) <= 1415 / 1000 * m) by (apply cmod_comp; [apply Rmax_l|apply Rmax_r]).
  assert (0 <= m) by (eapply Rle_trans; [apply Rabs_pos|apply Rmax_l]). lra.
Qed.
Theorem ctan_f64 (z : cplx f64) (t : cplx R) : cgood z -> Rabs (fval (im z)) <= 340 -> cmul t (cos_c (cval z)) = sin_c (cval z) ->
  4 * (a + b + 6) * uro * cosh (fval (im z)) <= cmod (cos_c (cval z)) ->
  exists q, ctan z = Ret q /\ cgood q /\ cmod (csub (cval q) t) <= 4 * (a + b + 9) * uro * (1 + cmod t) * (cosh (fval (im z)) / cmod (cos_c (cval z))).
Proof.
  intros Gz Hy Ht Hc. destruct (csin_f64 z Gz Hy) as (s & S1 & S2 & S3). destruct (ccos_f64 z Gz Hy) as (c & C1 & C2 & C3).
  unfold ctan. rewrite S1, C1. cbn [bind]. destruct (cosh_big _ Hy) as (H1 & H2 & _). destruct (sin_c_le (cval z) Hy) as (M1 & M2). change (im (cval z)) with (fval (im z)) in M1, M2. set (h := cosh (fval (im z))) in *. set (S := sin_c (cval z)) in *. set (C := cos_c (cval z)) in *.
  pose proof uro_pos as U. pose proof uro_small as U1. pose proof eta64_pos as T0.
  assert (T2 : eta64 <= / 1000 * uro * (uro * uro)). { assert (K3 : eta64 <= bpow radix2 (-10) * (bpow radix2 (-53) * (bpow radix2 (-53) * bpow radix2 (-53)))) by (unfold eta64; rewrite <- !bpow_plus; apply bpow_le; lia). unfold uro.
    assert (K4 : bpow radix2 (-10) <= / 1000) by (simpl bpow; lra). eapply Rle_trans; [exact K3|]. rewrite Rmult_assoc. apply Rmult_le_compat_r; [|exact K4]. repeat apply Rmult_le_pos; apply bpow_ge_0. }
  set (ep := 2 * (a + b + 6) * uro * h) in *. assert (Hc2 : 2 * ep <= cmod C) by (unfold ep; lra). assert (UH : uro <= uro * h) by (rewrite <- (Rmult_1_r uro) at 1; apply Rmult_le_compat_l; lra).
  assert (AB : 0 <= (a + b) * (uro * h)) by (apply Rmult_le_pos; [lra|apply Rmult_le_pos; lra]). assert (E0 : 12 * uro <= ep) by (unfold ep; lra).
  assert (P : 2 * (a + b + 6) * uro <= / 100000) by nra. assert (PC : ep <= / 100000 * h) by (unfold ep; apply Rmult_le_compat_r; lra).
  assert (Lc : cmod C / 2 <= cmod (cval c)). { pose proof (cmod_near C (cval c)) as N. replace (cmod (csub C (cval c))) with (cmod (csub (cval c) C)) in N by (unfold cmod; f_equal; unfold csub; cbn [re im sub R_ops]; ring). lra. }
  pose proof (cmod_near (cval s) S) as Ns. pose proof (cmod_near (cval c) C) as Nc.
  assert (B5 : bpow radix2 500 = 32 * bpow radix2 495) by (change 500%Z with (5 + 495)%Z; rewrite bpow_plus; reflexivity).
  assert (B51 : bpow radix2 500 <= bpow radix2 510) by (apply bpow_le; lia).
  pose proof (re_le (cval s)) as R1. pose proof (im_le (cval s)) as R2. pose proof (re_le (cval c)) as R3. pose proof (im_le (cval c)) as R4. change (re (cval s)) with (fval (re s)) in R1. change (im (cval s)) with (fval (im s)) in R2. change (re (cval c)) with (fval (re c)) in R3. change (im (cval c)) with (fval (im c)) in R4.
  assert (B500 : bpow radix2 (-500) <= uro) by (unfold uro; apply bpow_le; lia).
  destruct (cdiv_f64 s c S2 C2) as (q & e & Q1 & Q2 & Q3 & Q4); [split; lra|split; lra|apply cabove_mod; lra|].
  exists q. split; [exact Q1|]. split; [exact Q2|]. set (mc := cmod (cval c)) in *. assert (mc0 : 0 < mc) by lra. assert (C0 : 0 < cmod C) by lra.
  assert (Ee : cmul e (cval c) = cval s).
  { assert (D0 : re (cval c) * re (cval c) + im (cval c) * im (cval c) <> 0). { intro Z. unfold mc, cmod in mc0. rewrite Z, sqrt_0 in mc0. lra. }
    exact (cdiv_back _ _ _ Q3 D0). }
  assert (D : cmod (csub e t) * mc <= ep * (1 + cmod t)).
  { unfold mc. rewrite <- cmod_mul. replace (cmul (csub e t) (cval c)) with (csub (csub (cval s) S) (cmul t (csub (cval c) C))).
    - eapply Rle_trans; [apply cmod_sub|]. rewrite cmod_mul. pose proof (cmod_pos t). assert (cmod t * cmod (csub (cval c) C) <= cmod t * ep) by (apply Rmult_le_compat_l; lra). lra.
    - rewrite <- Ee, <- Ht. unfold csub, cmul. cbn [re im sub mul add R_ops]. f_equal; ring. }
  pose proof (cmod_pos t) as F0. set (F := cmod t) in *. set (X := (1 + F) * (h / cmod C)). assert (HC1 : 1 <= h / cmod C) by (apply Rmult_le_reg_r with (cmod C); [exact C0|]; unfold Rdiv; rewrite Rmult_assoc, Rinv_l, Rmult_1_r by lra; lra).
  assert (X1 : 1 + F <= X) by (unfold X; rewrite <- (Rmult_1_r (1 + F)) at 1; apply Rmult_le_compat_l; lra).
  assert (D2 : cmod (csub e t) <= 4 * (a + b + 6) * uro * X).
  { apply Rmult_le_reg_r with mc; [exact mc0|]. eapply Rle_trans; [exact D|].
    replace (ep * (1 + F)) with (4 * (a + b + 6) * uro * X * (cmod C / 2)) by (unfold ep, X; field; lra). apply Rmult_le_compat_l; [|lra]. apply Rmult_le_pos; [apply Rmult_le_pos; lra|lra]. }
  assert (Sc : cmod (cval s) / mc = cmod e). { rewrite <- Ee, cmod_mul. fold mc. field. lra. } rewrite Sc in Q4.
  pose proof (cmod_near e t) as Ne. fold F in Ne.
  assert (P2 : 4 * (a + b + 6) * uro * X <= / 10000 * X) by (apply Rmult_le_compat_r; lra).
  assert (UX : uro * cmod e <= uro * (1001 / 1000 * X)) by (apply Rmult_le_compat_l; lra).
  assert (I1 : 5 * eta64 / (mc * mc) <= / 1000 * uro). { apply Rmult_le_reg_r with (mc * mc); [now apply Rmult_lt_0_compat|]. unfold Rdiv. rewrite Rmult_assoc, Rinv_l, Rmult_1_r by (apply Rgt_not_eq; now apply Rmult_lt_0_compat).
    assert (12 * uro * (12 * uro) <= mc * mc) by (apply Rmult_le_compat; lra). assert (/ 1000 * uro * (12 * uro * (12 * uro)) <= / 1000 * uro * (mc * mc)) by (apply Rmult_le_compat_l; lra). lra. }
  assert (I2 : eta64 <= / 1000 * uro). { eapply Rle_trans; [exact T2|]. rewrite <- (Rmult_1_r (/ 1000 * uro)) at 2. apply Rmult_le_compat_l; [lra|nra]. }
  assert (UX1 : uro <= uro * X) by (rewrite <- (Rmult_1_r uro) at 1; apply Rmult_le_compat_l; lra).
  pose proof (cmod_tri (cval q) e t) as T. replace (4 * (a + b + 9) * uro * (1 + F) * (h / cmod C)) with (4 * (a + b + 9) * uro * X) by (unfold X; ring). lra.
Qed.
(** The principal logarithm. *)
Lemma ln_near p q t : 0 < p -> 0 < q -> t <= / 2 -> Rabs (p - q) <= t * p -> Rabs (ln p - ln q) <= 2 * t.
Proof.
  intros Hp Hq Ht H. assert (T0 : 0 <= t). { pose proof (Rabs_pos (p - q)). destruct (Rle_dec 0 t) as [L|L]; [exact L|]. assert (t * p < 0) by nra. lra. }
  assert (HA : - (t * p) <= p - q <= t * p) by (revert H; unfold Rabs; destruct Rcase_abs; lra).
  assert (K : forall u v, 0 < u -> 0 < v -> ln u - ln v <= (u - v) / v).
  { intros u v Hu Hv. replace (ln u - ln v) with (ln (u / v)) by (unfold Rdiv; rewrite ln_mult, ln_Rinv by (try apply Rinv_0_lt_compat; assumption); ring). assert (L : 0 < u / v) by now apply Rdiv_lt_0_compat. pose proof (exp_ineq1_le (ln (u / v))) as Q. rewrite exp_ln in Q by exact L. replace ((u - v) / v) with (u / v - 1) by (field; lra). lra. }
  pose proof (K p q Hp Hq) as K1. pose proof (K q p Hq Hp) as K2.
  assert (D1 : (p - q) / q <= 2 * t). { apply Rmult_le_reg_r with q; [exact Hq|]. unfold Rdiv. rewrite Rmult_assoc, Rinv_l, Rmult_1_r by lra. assert (t * p <= / 2 * p) by (apply Rmult_le_compat_r; lra). assert (t * p <= t * (2 * q)) by (apply Rmult_le_compat_l; lra). lra. }
  assert (D2 : (q - p) / p <= t). { apply Rmult_le_reg_r with p; [exact Hp|]. unfold Rdiv. rewrite Rmult_assoc, Rinv_l, Rmult_1_r by lra. lra. }
  apply Rabs_le. lra.
Qed.
End Fun.
Theorem cln_f64 pw (E : EOps f64) k a b (z : cplx f64) : sqrt_good k (fun x => pw x (@half f64 (F64_pops pw))) -> gam (k + 16) <= / 100 ->
  (forall x, fvalid x -> ffin (pw x (@half f64 (F64_pops pw))) = true -> 0 <= fval (pw x (@half f64 (F64_pops pw)))) ->
  0 <= a <= 1000000 -> ln_acc a (@tln f64 E) -> atan2_acc b (@tatan2 f64 E) ->
  cgood z -> cbelow (bpow radix2 510) z -> cabove (bpow radix2 (-500)) z -> fval (im z) <> 0 \/ 0 < fval (re z) ->
  let r := @cln f64 F64_ops (F64_pops pw) E z in cgood r /\
  Rabs (fval (re r) - re (ln_c (cval z))) <= 3 * (gam k + 4 * uro) + a * uro * Rabs (re (ln_c (cval z))) + eta64 /\
  Rabs (fval (im r) - im (ln_c (cval z))) <= b * uro.
Proof.
  intros Hs Hg Hp Ha HL HT Gz B1 B2 Hc r. destruct (cabs_f64 pw E k z Hs Hg Hp Gz B1 B2) as ((Gr & _) & _ & P & Er). set (m := re (cabs z)) in *.
  pose proof uro_pos as U. pose proof uro_small as U1. pose proof eta64_pos as T0. pose proof (gam_pos k) as G0. assert (G1 : gam k <= / 100) by (eapply Rle_trans; [apply gam_mono|exact Hg]; lia).
  assert (Hm : 0 < cmod (cval z)). { assert (0 < fval m * (1 - (gam k + 4 * uro))) by (apply Rmult_lt_0_compat; lra). revert Er. unfold Rabs. destruct Rcase_abs; lra. }
  destruct (HL m Gr P) as (Gl & El). destruct Gz as (Gx & Gy). destruct (HT (im z) (re z) Gy Gx Hc) as (Gt & Et).
  split; [split; [exact Gl|exact Gt]|]. split; [|exact Et].
  change (re r) with (@tln f64 E m). change (re (ln_c (cval z))) with (ln (cmod (cval z))).
  pose proof (ln_near (fval m) (cmod (cval z)) (gam k + 4 * uro) P Hm ltac:(lra) Er) as N. set (l := ln (cmod (cval z))) in *. set (lm := ln (fval m)) in *. set (t := gam k + 4 * uro) in *.
  assert (A1 : Rabs lm <= Rabs l + 2 * t) by (unfold Rabs in *; repeat destruct Rcase_abs; lra).
  assert (AU : 0 <= a * uro <= / 2) by nra. assert (A2 : a * uro * Rabs lm <= a * uro * (Rabs l + 2 * t)) by (apply Rmult_le_compat_l; lra).
  assert (A3 : a * uro * (2 * t) <= / 2 * (2 * t)) by (apply Rmult_le_compat_r; [unfold t; lra|lra]).
  replace (fval (tln m) - l) with ((fval (tln m) - lm) + (lm - l)) by ring. eapply Rle_trans; [apply Rabs_triang|]. lra.
Qed.
Lemma atan2_acc_ex : atan2_acc 5 (@tatan2 f64 exact_eops).
Proof.
  intros y x _ _ _. change (tatan2 y x) with (ofR (R_atan2 (fval y) (fval x))). pose proof (Complex_proofs.atan2_range (fval x) (fval y)) as Q. set (v := R_atan2 (fval y) (fval x)) in *.
  pose proof PI_4 as P4. assert (V : Rabs v <= 4) by (apply Rabs_le; lra). assert (B : 4 <= bpow radix2 1023) by (change 4 with (bpow radix2 2); apply bpow_le; lia).
  destruct (ofR_err v) as (G & H); [lra|]. split; [exact G|]. pose proof uro_pos as U. pose proof eta_uro_2 as T.
  assert (uro * bpow radix2 (-1022) <= uro * 1) by (apply Rmult_le_compat_l; [lra|change 1 with (bpow radix2 0); apply bpow_le; lia]). assert (uro * Rabs v <= uro * 4) by (apply Rmult_le_compat_l; lra). lra.
Qed.
Lemma fun_spec (z : cplx R) :
  cmul (mkC 0 2) (sin_c z) = csub (cexp (mkC (- im z) (re z))) (cexp (mkC (im z) (- re z))) /\
  cmul (mkC 2 0) (cos_c z) = cadd (cexp (mkC (- im z) (re z))) (cexp (mkC (im z) (- re z))) /\
  cmul (mkC 2 0) (sinh_c z) = csub (cexp z) (cexp (cneg z)) /\ cmul (mkC 2 0) (cosh_c z) = cadd (cexp z) (cexp (cneg z)) /\
  (z <> mkC 0 0 -> cexp (ln_c z) = z).
Proof.
  destruct z as [x y]. unfold sin_c, cos_c, sinh_c, cosh_c, cmul, csub, cadd, cneg, cexp, cosh, sinh. cbn [re im add sub mul neg R_ops texp tcos tsin R_eops]. rewrite !cos_neg, !sin_neg.
  split; [f_equal; field|]. split; [f_equal; field|]. split; [f_equal; field|]. split; [f_equal; field|].
  intros N. assert (D : x * x + y * y <> 0). { intro Z. apply N. pose proof (Rle_0_sqr x) as X. pose proof (Rle_0_sqr y) as Y. unfold Rsqr in *. assert (X0 : x * x = 0) by lra. assert (Y0 : y * y = 0) by lra. f_equal; [destruct (Rmult_integral _ _ X0)|destruct (Rmult_integral _ _ Y0)]; assumption. }
  destruct (Complex_proofs.atan2_polar x y D) as (P1 & P2). unfold ln_c, cmod. cbn [re im]. rewrite exp_ln.
  - now rewrite <- P1, <- P2.
  - apply sqrt_lt_R0. pose proof (Rle_0_sqr x) as X. pose proof (Rle_0_sqr y) as Y. unfold Rsqr in *. lra.
Qed.
Lemma ex_4i_ok : let z : cplx f64 := mkC zero (int_as_f64 4) in
  cgood z /\ cval z = mkC 0 4 /\ Rabs (fval (im z)) <= 340 /\ Rabs (fval (re z)) <= 340 /\ fval (im z) <> 0 /\ 4 * (2 + 2 + 6) * uro * cosh (fval (im z)) <= cmod (cos_c (cval z)).
Proof.
  intros z. destruct (int_as_f64_ok 4) as (V & F & H); [cbn; lia|]. assert (Hi : fval (im z) = 4) by exact H. assert (Hr : fval (re z) = 0) by reflexivity.
  assert (Hv : cval z = mkC 0 4) by (unfold cval; now rewrite Hi, Hr). split; [split; [split; reflexivity|split; assumption]|]. split; [exact Hv|]. rewrite Hi, Hr, Hv, Rabs_R0. split; [apply Rabs_le; lra|]. split; [lra|]. split; [lra|].
  destruct (cosh_big 4) as (C1 & _ & _); [apply Rabs_le; lra|]. pose proof uro_small as U1. pose proof uro_pos as U.
  assert (K : cosh 4 <= cmod (cos_c (mkC 0 4))). { pose proof (re_le (cos_c (mkC 0 4))) as Q. unfold cos_c in Q at 1. cbn [re im] in Q. rewrite cos_0, Rmult_1_l in Q. rewrite Rabs_pos_eq in Q by lra. exact Q. }
  assert (4 * (2 + 2 + 6) * uro * cosh 4 <= 1 * cosh 4) by (apply Rmult_le_compat_r; lra). lra.
Qed.
