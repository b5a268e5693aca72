(** The logarithm of the gamma function (gamma.rs:284-330) against Euler's integral. *)
From Coq Require Import Arith Lia List Bool ZArith QArith Qreals Reals Machin Lra Psatz.
From Coquelicot Require Import Coquelicot.
From Verif Require Import Outcome Scalar RealOps Elem_model Int_model Ode_model Special_model.
From Verif Require Import Stat_spec Special_spec Discrete_proofs OdeOrder_proofs Continuous_proofs Normal_proofs Special_proofs GammaFun_proofs.
From Verif Require Import Stirling_proofs Lanczos_proofs LanczosAcc_proofs.
Import ListNotations.
Local Open Scope R_scope.

(** ** Rational bounds of the exponential function and of PI *)
Definition tay (y : R) (n : nat) : R := sum_f_R0 (fun k => y ^ k / INR (fact k)) n.
Lemma INR_fact_pos n : 0 < INR (fact n). Proof. apply lt_0_INR. apply lt_O_fact. Qed.
Lemma tay_derive n t : is_derive (fun t => tay t n) t (tay t n - t ^ n / INR (fact n)).
Proof.
  unfold tay. induction n as [|n IH].
  - cbn [sum_f_R0]. auto_derive; [exact I|]. cbn. field.
  - cbn [sum_f_R0].
    replace (sum_f_R0 (fun k => t ^ k / INR (fact k)) n + t ^ S n / INR (fact (S n)) - t ^ S n / INR (fact (S n)))
      with ((sum_f_R0 (fun k => t ^ k / INR (fact k)) n - t ^ n / INR (fact n)) + t ^ n / INR (fact n)) by ring.
    apply (is_derive_plus (fun t => sum_f_R0 (fun k => t ^ k / INR (fact k)) n) (fun t => t ^ S n / INR (fact (S n)))); [exact IH|].
    pose proof (INR_fact_pos n). rewrite fact_simpl, mult_INR. pose proof (pos_INR n). 
    auto_derive; [exact I|]. match goal with |- ?a = ?b => change (@eq R a b) end.
    change (Init.Nat.pred (S n)) with n. change (match n with 0%nat => 1 | S _ => INR n + 1 end) with (INR (S n)).
    rewrite S_INR. field. split; lra.
Qed.
Lemma exp_taylor_up y n : 0 <= y -> 2 * y <= INR (S n) -> exp y <= tay y n + 2 * (y ^ S n / INR (fact (S n))).
Proof.
  intros Hy Hn.
  assert (G : 0 <= (tay y n + 2 * (y ^ S n / INR (fact (S n)))) * exp (- y) - 1).
  { destruct (Req_dec y 0) as [->|N].
    { rewrite Ropp_0, exp_0, pow_ne_zero by discriminate. unfold tay.
      assert (T0 : sum_f_R0 (fun k => 0 ^ k / INR (fact k)) n = 1).
      { clear. induction n as [|n IH]; [cbn; field|]. cbn [sum_f_R0]. rewrite IH, pow_ne_zero by discriminate. unfold Rdiv. ring. }
      rewrite T0. unfold Rdiv. lra. }
    set (f := fun t => (tay t n + 2 * (t ^ S n / INR (fact (S n)))) * exp (- t)).
    assert (D : forall t, is_derive f t ((t ^ n / INR (fact n) - 2 * (t ^ S n / INR (fact (S n)))) * exp (- t))).
    { intros t. unfold f. pose proof (tay_derive n t) as T. pose proof (INR_fact_pos n). rewrite fact_simpl, mult_INR. pose proof (pos_INR n).
      change (is_derive (fun t => tay t n) t (tay t n - t ^ n / INR (fact n))) in T.
      set (T0 := fun t => tay t n) in T. assert (T1 : is_derive T0 t (T0 t - t ^ n / INR (fact n))) by exact T.
      change (is_derive (fun t => (T0 t + 2 * (t ^ S n / (INR (S n) * INR (fact n)))) * exp (- t)) t ((t ^ n / INR (fact n) - 2 * (t ^ S n / (INR (S n) * INR (fact n)))) * exp (- t))).
      clearbody T0. auto_derive; [exists (T0 t - t ^ n / INR (fact n)); exact T1|].
      change (Derive (fun x => T0 x) t) with (Derive T0 t). rewrite (is_derive_unique _ _ _ T1).
      match goal with |- ?a = ?b => change (@eq R a b) end.
      change (Init.Nat.pred (S n)) with n. change (match n with 0%nat => 1 | S _ => INR n + 1 end) with (INR (S n)).
      rewrite S_INR. rewrite <- !tech_pow_Rmult. field. split; lra. }
    destruct (MVT_gen f 0 y (fun t => (t ^ n / INR (fact n) - 2 * (t ^ S n / INR (fact (S n)))) * exp (- t))) as [c [Hc E]].
    - intros t _. apply D.
    - intros t _. apply continuity_pt_filterlim. apply (ex_derive_continuous f t). eexists. apply D.
    - rewrite Rmin_left, Rmax_right in Hc by lra.
      assert (F0 : f 0 = 1).
      { unfold f, tay. rewrite Ropp_0, exp_0, pow_ne_zero by discriminate.
        assert (T0 : sum_f_R0 (fun k => 0 ^ k / INR (fact k)) n = 1).
        { clear. induction n as [|n IH]; [cbn; field|]. cbn [sum_f_R0]. rewrite IH, pow_ne_zero by discriminate. unfold Rdiv. ring. }
        rewrite T0. unfold Rdiv. ring. }
      rewrite F0 in E. unfold f at 1 in E. rewrite E. apply Rmult_le_pos; [|lra]. apply Rmult_le_pos; [|left; apply exp_pos].
      rewrite fact_simpl, mult_INR, <- tech_pow_Rmult. pose proof (INR_fact_pos n). pose proof (lt_0_INR (S n) ltac:(lia)).
      replace (c ^ n / INR (fact n) - 2 * (c * c ^ n / (INR (S n) * INR (fact n)))) with (c ^ n / INR (fact n) * ((INR (S n) - 2 * c) / INR (S n))) by (field; lra).
      apply Rmult_le_pos; [apply Rdiv_le_0_compat; [apply pow_le; lra|assumption]|]. apply Rdiv_le_0_compat; lra. }
  rewrite exp_Ropp in G. pose proof (exp_pos y).
  apply Rmult_le_reg_r with (/ exp y); [now apply Rinv_0_lt_compat|]. rewrite Rinv_r by lra. lra.
Qed.
Lemma Q2R_red q : Q2R (Qred q) = Q2R q.
Proof. apply Qeq_eqR. apply Qred_correct. Qed.
Lemma Q2R_Z z : Q2R (inject_Z z) = IZR z.
Proof. unfold Q2R, inject_Z. cbn. field. Qed.
Definition q_pi_t (n : nat) : Q :=
  let k := Z.of_nat (2 * n + 1) in
  Qred (inject_Z ((if Nat.even n then 1 else -1) * (2 * 7 ^ k + 3 ^ k)) / inject_Z (21 ^ k * k)).
Fixpoint q_pi (n : nat) : Q := match n with O => q_pi_t 0 | S k => Qred (q_pi k + q_pi_t (S k)) end.
Lemma q_pi_t_ok n : Q2R (q_pi_t n) = tg_alt PI_2_3_7_tg n.
Proof.
  unfold q_pi_t, tg_alt, PI_2_3_7_tg, Ratan_seq. set (k := (2 * n + 1)%nat).
  assert (K : (0 < k)%nat) by (unfold k; lia).
  rewrite Q2R_red. rewrite Q2R_div.
  - rewrite !Q2R_Z. rewrite !mult_IZR, plus_IZR, mult_IZR. rewrite <- !pow_IZR, <- INR_IZR_INZ.
    assert (S : IZR (if Nat.even n then 1 else -1) = (-1) ^ n).
    { clear. induction n as [|n IH]; [reflexivity|]. rewrite Nat.even_succ, <- Nat.negb_even, <- tech_pow_Rmult, <- IH. destruct (Nat.even n); cbn; ring. }
    rewrite S. pose proof (lt_0_INR k K). rewrite !pow_inv. replace 21 with (3 * 7) by ring. rewrite Rpow_mult_distr.
    pose proof (pow_lt 3 k ltac:(lra)). pose proof (pow_lt 7 k ltac:(lra)). field. repeat split; lra.
  - assert (0 < 21 ^ Z.of_nat k)%Z by (apply Z.pow_pos_nonneg; lia).
    assert (0 < Z.of_nat k)%Z by lia. assert (0 < 21 ^ Z.of_nat k * Z.of_nat k)%Z by now apply Z.mul_pos_pos.
    unfold Qeq, inject_Z. cbn -[Z.of_nat Z.mul Z.pow]. lia.
Qed.
Lemma q_pi_ok n : Q2R (q_pi n) = sum_f_R0 (tg_alt PI_2_3_7_tg) n.
Proof. induction n as [|n IH]; cbn [q_pi sum_f_R0]; [apply q_pi_t_ok|]. rewrite Q2R_red, Q2R_plus, IH, q_pi_t_ok. reflexivity. Qed.
Definition pi_lo : Q := (314159265358979323846 # 100000000000000000000)%Q.
Definition pi_hi : Q := (314159265358979323847 # 100000000000000000000)%Q.
Lemma PI_bounds : Q2R pi_lo <= PI <= Q2R pi_hi.
Proof.
  destruct (PI_2_3_7_ineq 11) as [L U]. rewrite <- !q_pi_ok in *.
  assert (A : (pi_lo <= (4 # 1) * q_pi (S (2 * 11)))%Q) by (apply Qle_bool_iff; vm_compute; reflexivity).
  assert (B : ((4 # 1) * q_pi (2 * 11) <= pi_hi)%Q) by (apply Qle_bool_iff; vm_compute; reflexivity).
  apply Qle_Rle in A. apply Qle_Rle in B. rewrite Q2R_mult in A, B.
  assert (F : Q2R (4 # 1) = 4) by (unfold Q2R; cbn; field). rewrite F in A, B.
  set (u := Q2R (q_pi (S (2 * 11)))) in *. set (v := Q2R (q_pi (2 * 11))) in *. lra.
Qed.
(** The Taylor sum at p/q in integers: numerator, last term, common denominator. *)
Fixpoint ztay (p q : Z) (n : nat) : Z * Z * Z :=
  match n with
  | O => (1, 1, 1)%Z
  | S k => let '(s, t, d) := ztay p q k in let c := (q * Z.of_nat (S k))%Z in ((s * c + t * p), t * p, d * c)%Z
  end.
Lemma ztay_ok p q n : (0 < q)%Z -> let '(s, t, d) := ztay p q n in
  0 < IZR d /\ IZR s / IZR d = tay (IZR p / IZR q) n /\ IZR t / IZR d = (IZR p / IZR q) ^ n / INR (fact n).
Proof.
  intros Hq. apply IZR_lt in Hq. induction n as [|n IH].
  - cbn [ztay]. unfold tay. cbn. split; [lra|]. split; field.
  - cbn [ztay]. destruct (ztay p q n) as [[s t] d]. destruct IH as [D [I1 I2]]. pose proof (INR_fact_pos n). pose proof (lt_0_INR (S n) ltac:(lia)).
    assert (T : IZR (t * p) / IZR (d * (q * Z.of_nat (S n))) = (IZR p / IZR q) ^ S n / INR (fact (S n))).
    { rewrite !mult_IZR, <- INR_IZR_INZ, fact_simpl, mult_INR, <- tech_pow_Rmult.
      replace (IZR t * IZR p / (IZR d * (IZR q * INR (S n)))) with (IZR t / IZR d * (IZR p / IZR q) / INR (S n)) by (field; lra).
      rewrite I2. field. lra. }
    split; [|split; [|exact T]].
    + rewrite !mult_IZR, <- INR_IZR_INZ. repeat apply Rmult_lt_0_compat; assumption.
    + unfold tay in *. cbn [sum_f_R0]. rewrite <- T, <- I1. rewrite plus_IZR, !mult_IZR, <- INR_IZR_INZ. field. lra.
Qed.
(** l/e <= exp (p/q) <= h/e, checked in integers. *)
Definition zexp_ck (p q l h e : Z) (n : nat) : bool :=
  let '(s, t, d) := ztay p q n in
  Z.ltb 0 q && Z.leb 0 p && Z.ltb 0 e && Z.leb (2 * p) (q * Z.of_nat (S n)) && Z.leb (l * d) (s * e)
  && Z.leb ((s * (q * Z.of_nat (S n)) + 2 * (t * p)) * e) (h * (d * (q * Z.of_nat (S n)))).
Lemma zexp_bounds p q l h e n : zexp_ck p q l h e n = true -> IZR l / IZR e <= exp (IZR p / IZR q) <= IZR h / IZR e.
Proof.
  unfold zexp_ck. pose proof (ztay_ok p q n) as K. destruct (ztay p q n) as [[s t] d].
  rewrite !andb_true_iff, !Z.leb_le, !Z.ltb_lt. intros [[[[[Hq Hp] He] Hn] HL] HU]. specialize (K Hq). destruct K as [D [I1 I2]].
  apply IZR_lt in Hq. apply IZR_le in Hp. apply IZR_lt in He. apply IZR_le in Hn. apply IZR_le in HL. apply IZR_le in HU.
  rewrite ?mult_IZR, ?plus_IZR, ?mult_IZR, <- ?INR_IZR_INZ in *. pose proof (INR_fact_pos n) as Fn. pose proof (lt_0_INR (S n) ltac:(lia)) as Sn.
  assert (Y0 : 0 <= IZR p / IZR q) by (apply Rdiv_le_0_compat; assumption). split.
  - apply Rle_trans with (tay (IZR p / IZR q) n); [|apply exp_ge_taylor; assumption]. rewrite <- I1.
    apply Rmult_le_reg_r with (IZR e * IZR d); [now apply Rmult_lt_0_compat|].
    replace (IZR l / IZR e * (IZR e * IZR d)) with (IZR l * IZR d) by (field; lra).
    replace (IZR s / IZR d * (IZR e * IZR d)) with (IZR s * IZR e) by (field; lra). assumption.
  - assert (Y1 : 2 * (IZR p / IZR q) <= INR (S n)).
    { apply Rmult_le_reg_r with (IZR q); [assumption|]. replace (2 * (IZR p / IZR q) * IZR q) with (2 * IZR p) by (field; lra). lra. }
    eapply Rle_trans; [apply (exp_taylor_up _ n Y0 Y1)|]. rewrite fact_simpl, mult_INR, <- tech_pow_Rmult.
    replace (IZR p / IZR q * (IZR p / IZR q) ^ n / (INR (S n) * INR (fact n))) with ((IZR p / IZR q) ^ n / INR (fact n) * (IZR p / IZR q) / INR (S n)) by (field; lra).
    rewrite <- I1, <- I2.
    assert (P : 0 < IZR d * (IZR q * INR (S n)) * IZR e) by (repeat apply Rmult_lt_0_compat; assumption).
    apply Rmult_le_reg_r with (IZR d * (IZR q * INR (S n)) * IZR e); [exact P|].
    replace (IZR h / IZR e * (IZR d * (IZR q * INR (S n)) * IZR e)) with (IZR h * (IZR d * (IZR q * INR (S n)))) by (field; lra).
    eapply Rle_trans; [|exact HU]. right. field. repeat split; lra.
Qed.
Definition ex_lo : Q := (7986528326614073989 # 1000000000)%Q.
Definition ex_hi : Q := (7986528326614073990 # 1000000000)%Q.
Lemma ex_ck : zexp_ck 22801022 1000000 7986528326614073989 7986528326614073990 1000000000 80 = true.
Proof. vm_compute. reflexivity. Qed.
Lemma EX_bounds : Q2R ex_lo <= exp (22801022 / 1000000) <= Q2R ex_hi.
Proof. exact (zexp_bounds _ _ _ _ _ _ ex_ck). Qed.
Definition lg_d0 : Q := (248574089138753565546 # 10000000000000000000000000)%Q.
(** The constant of the approximation is right to 17 digits. *)
Lemma lg_const : Rabs (1 / 2 * ln 2 + 11400511 / 1000000 - ln PI + ln (248574089138753565546 / 10000000000000000000000000)) <= / 100000000000000000.
Proof.
  set (d := 248574089138753565546 / 10000000000000000000000000). pose proof PI_RGT_0 as PP.
  assert (Pd : 0 < d) by (unfold d; lra).
  set (E := exp (22801022 / 1000000)). assert (PE : 0 < E) by apply exp_pos.
  set (X := 2 * E * (d * d) / (PI * PI)).
  assert (P2 : 0 < PI * PI) by (apply Rmult_lt_0_compat; assumption).
  assert (PX : 0 < X) by (unfold X; apply Rdiv_lt_0_compat; [|assumption]; repeat apply Rmult_lt_0_compat; lra).
  assert (L : 1 / 2 * ln 2 + 11400511 / 1000000 - ln PI + ln d = 1 / 2 * ln X).
  { unfold X. rewrite ln_div by (try assumption; repeat apply Rmult_lt_0_compat; lra).
    rewrite (ln_mult (2 * E)) by (try (apply Rmult_lt_0_compat; lra); lra). rewrite (ln_mult 2 E) by lra. rewrite (ln_mult d d), (ln_mult PI PI) by assumption.
    unfold E. rewrite ln_exp. field. }
  rewrite L.
  destruct PI_bounds as [pl ph]. destruct EX_bounds as [el eh]. fold E in el, eh.
  assert (Dq : Q2R lg_d0 = d) by (unfold Q2R, lg_d0, d; cbn; field).
  set (t := 1 / 50000000000000000).
  assert (Tq : Q2R (1 # 50000000000000000) = t) by (unfold Q2R, t; cbn; field).
  assert (Two : Q2R (2 # 1) = 2) by (unfold Q2R; cbn; field).
  assert (One : Q2R 1 = 1) by (unfold Q2R; cbn; field).
  assert (U : 2 * E * (d * d) <= (1 + t) * (PI * PI)).
  { assert (A : ((2 # 1) * ex_hi * (lg_d0 * lg_d0) <= (1 + (1 # 50000000000000000)) * (pi_lo * pi_lo))%Q) by (apply Qle_bool_iff; vm_compute; reflexivity).
    apply Qle_Rle in A. rewrite !Q2R_mult, Q2R_plus, Two, One, Tq, Dq in A.
    assert (0 < Q2R pi_lo) by (unfold Q2R, pi_lo; cbn; lra).
    assert (Q2R pi_lo * Q2R pi_lo <= PI * PI) by (apply Rmult_le_compat; lra).
    assert (0 < d * d) by (apply Rmult_lt_0_compat; assumption).
    assert (2 * E * (d * d) <= 2 * Q2R ex_hi * (d * d)) by (apply Rmult_le_compat_r; lra).
    assert ((1 + t) * (Q2R pi_lo * Q2R pi_lo) <= (1 + t) * (PI * PI)) by (apply Rmult_le_compat_l; [unfold t|]; lra). lra. }
  assert (V : PI * PI <= (1 + t) * (2 * E * (d * d))).
  { assert (A : (pi_hi * pi_hi <= (1 + (1 # 50000000000000000)) * ((2 # 1) * ex_lo * (lg_d0 * lg_d0)))%Q) by (apply Qle_bool_iff; vm_compute; reflexivity).
    apply Qle_Rle in A. rewrite !Q2R_mult, Q2R_plus, Two, One, Tq, Dq in A.
    assert (PI * PI <= Q2R pi_hi * Q2R pi_hi) by (apply Rmult_le_compat; lra).
    assert (0 < d * d) by (apply Rmult_lt_0_compat; assumption).
    assert (2 * Q2R ex_lo * (d * d) <= 2 * E * (d * d)) by (apply Rmult_le_compat_r; lra).
    assert ((1 + t) * (2 * Q2R ex_lo * (d * d)) <= (1 + t) * (2 * E * (d * d))) by (apply Rmult_le_compat_l; [unfold t|]; lra). lra. }
  assert (XU : X <= 1 + t).
  { unfold X. apply Rmult_le_reg_r with (PI * PI); [assumption|]. unfold Rdiv. rewrite Rmult_assoc, Rinv_l by lra. lra. }
  assert (XL : / X <= 1 + t).
  { unfold X. assert (0 < 2 * E * (d * d)) by (repeat apply Rmult_lt_0_compat; lra).
    replace (/ (2 * E * (d * d) / (PI * PI))) with (PI * PI / (2 * E * (d * d))) by (field; repeat split; lra).
    apply Rmult_le_reg_r with (2 * E * (d * d)); [assumption|]. unfold Rdiv. rewrite Rmult_assoc, Rinv_l by lra. lra. }
  pose proof (ln_le_sub1 X PX). pose proof (ln_le_sub1 (/ X) ltac:(now apply Rinv_0_lt_compat)) as H'. rewrite ln_Rinv in H' by assumption.
  apply Rabs_le. unfold t in *. lra.
Qed.

(** ** The approximation *)
Definition lg_N : list Z := [38154066339735270001324800000000000; 36550535269625702488278313506028800; 15756799949360119635109607990902560; 4025383538142640189966410551783160; 674876752593457018898625386843560; 77587794054556380589155707296410; 6194528891422092570894900508240; 339136624401530040385787857140; 12184807036444597906785655240; 259434050880905025166404090; 2485740891387535655460000]%Z.
Lemma lg_ck : ck_ok lg_N 10400511 1000000 10900511 10 12 1709 1000000000000000000 = true.
Proof. vm_compute. reflexivity. Qed.
Definition lg_S (z : R) : R := dk_sum (fun i => z + of_int i - 1) 1 gamma_dk gamma_dk0.
Lemma lg_S_eq z : lg_S z = 248574089138753565546 / 10000000000000000000000000
  + 105142378581721974210 / 100000000000000000000 * / (z + 0) - 345687097222016235469 / 100000000000000000000 * / (z + 1)
  + 451227709466894823700 / 100000000000000000000 * / (z + 2) - 298285225323576655721 / 100000000000000000000 * / (z + 3)
  + 105639711577126713077 / 100000000000000000000 * / (z + 4) - 195428773191645869583 / 1000000000000000000000 * / (z + 5)
  + 170970543404441224307 / 10000000000000000000000 * / (z + 6) - 571926117404305781283 / 1000000000000000000000000 * / (z + 7)
  + 463399473359905636708 / 100000000000000000000000000 * / (z + 8) - 271994908488607703910 / 100000000000000000000000000000 * / (z + 9).
Proof.
  unfold lg_S, gamma_dk, gamma_dk0. cbn [dk_sum of_int R_zops]. rewrite !lit_R. rops.
  replace (z + IZR 1 - 1) with (z + 0) by ring. replace (z + IZR (1 + 1) - 1) with (z + 1) by (cbn; ring).
  replace (z + IZR (1 + 1 + 1) - 1) with (z + 2) by (cbn; ring). replace (z + IZR (1 + 1 + 1 + 1) - 1) with (z + 3) by (cbn; ring).
  replace (z + IZR (1 + 1 + 1 + 1 + 1) - 1) with (z + 4) by (cbn; ring). replace (z + IZR (1 + 1 + 1 + 1 + 1 + 1) - 1) with (z + 5) by (cbn; ring).
  replace (z + IZR (1 + 1 + 1 + 1 + 1 + 1 + 1) - 1) with (z + 6) by (cbn; ring). replace (z + IZR (1 + 1 + 1 + 1 + 1 + 1 + 1 + 1) - 1) with (z + 7) by (cbn; ring).
  replace (z + IZR (1 + 1 + 1 + 1 + 1 + 1 + 1 + 1 + 1) - 1) with (z + 8) by (cbn; ring). replace (z + IZR (1 + 1 + 1 + 1 + 1 + 1 + 1 + 1 + 1 + 1) - 1) with (z + 9) by (cbn; ring).
  unfold Rdiv. generalize (/ (z + 0)) (/ (z + 1)) (/ (z + 2)) (/ (z + 3)) (/ (z + 4)) (/ (z + 5)) (/ (z + 6)) (/ (z + 7)) (/ (z + 8)) (/ (z + 9)).
  intros. lra.
Qed.
Definition lg_P (z : R) : R := (z + 1) * (z + 2) * (z + 3) * (z + 4) * (z + 5) * (z + 6) * (z + 7) * (z + 8) * (z + 9).
Lemma lg_S_num z : 0 < z -> lg_S z = pe lg_N z / 100000000000000000000000000000 / (z * lg_P z).
Proof.
  intros Hz. rewrite lg_S_eq. unfold lg_N, lg_P. cbn [pe]. rewrite Rplus_0_r. field. repeat split; lra.
Qed.
Lemma lg_n_pos z : 0 <= z -> 0 < pe lg_N z.
Proof. apply pe_pos_of. reflexivity. Qed.
Lemma lg_P_pos z : 0 < z -> 0 < lg_P z.
Proof. intros Hz. unfold lg_P. repeat apply Rmult_lt_0_compat; lra. Qed.
Lemma lg_S_pos z : 0 < z -> 0 < lg_S z.
Proof.
  intros Hz. rewrite lg_S_num by assumption. pose proof (lg_n_pos z ltac:(lra)). pose proof (lg_P_pos z Hz).
  apply Rdiv_lt_0_compat; [apply Rdiv_lt_0_compat; lra|now apply Rmult_lt_0_compat].
Qed.
Lemma lg_S_ln z : 0 < z ->
  ln (lg_S (z + 1)) - ln (lg_S z) = ln (pe lg_N (z + 1)) - ln (pe lg_N z) + ln z - ln (z + 10).
Proof.
  intros Hz. rewrite !lg_S_num by lra.
  pose proof (lg_n_pos z ltac:(lra)). pose proof (lg_n_pos (z + 1) ltac:(lra)). pose proof (lg_P_pos z Hz).
  replace ((z + 1) * lg_P (z + 1)) with (lg_P z * (z + 10)) by (unfold lg_P; ring).
  set (n := pe lg_N z) in *. set (n' := pe lg_N (z + 1)) in *. set (c := 100000000000000000000000000000). assert (0 < c) by (unfold c; lra).
  rewrite !ln_div by (try assumption; try lra; try (apply Rdiv_lt_0_compat; lra); apply Rmult_lt_0_compat; lra).
  rewrite !ln_mult by lra. lra.
Qed.
Lemma lg_lim : is_lim (fun z => ln (lg_S z)) p_infty (ln (248574089138753565546 / 10000000000000000000000000)).
Proof.
  apply (filterlim_comp _ _ _ lg_S ln (Rbar_locally p_infty) (locally (248574089138753565546 / 10000000000000000000000000))).
  - match goal with |- filterlim _ _ (locally ?c) => change (is_lim lg_S p_infty c) end.
    eapply is_lim_ext; [intros z; symmetry; apply lg_S_eq|].
    assert (Z : forall a c, is_lim (fun z => a * / (z + c)) p_infty 0).
    { intros a c. replace (Finite 0) with (Finite (a * 0)) by (f_equal; ring). apply (is_lim_scal_l (fun z => / (z + c)) a p_infty 0). apply lim_inv_shift. }
    replace (Finite (248574089138753565546 / 10000000000000000000000000)) with (Finite (248574089138753565546 / 10000000000000000000000000 + 0 - 0 + 0 - 0 + 0 - 0 + 0 - 0 + 0 - 0)) by (f_equal; ring).
    repeat first [apply Z|apply is_lim_const|match goal with |- is_lim (fun z => _ - _) _ _ => apply is_lim_minus' | |- is_lim (fun z => _ + _) _ _ => apply is_lim_plus' end].
  - apply (ex_derive_continuous ln). auto_derive. lra.
Qed.
Lemma sln_gamma_F z : 1 / 2 <= z -> sln_gamma z = la_F (10400511 / 1000000) (ln 2 + 1 - 1 / 2 * ln PI) lg_S z.
Proof.
  intros Hz. pose proof PI_RGT_0 as PP. unfold la_F.
  transitivity (ln (lg_S z) + ln (lit 2 1 * R_pow (exp 1 / PI) (1 / 2)) + (z - 1 / 2) * ln ((z - 1 / 2 + gamma_r) / exp 1)).
  { unfold sln_gamma. rb. rewrite !lit_half'. rops. repeat rcase; try lra. reflexivity. }
  unfold gamma_r. rewrite !lit_R. pose proof (exp_pos 1) as E1.
  replace (z - 1 / 2 + 10900511 / 1000000) with (z + 10400511 / 1000000) by field.
  rewrite ln_div by lra. rewrite ln_exp.
  assert (PE : 0 < exp 1 / PI) by (apply Rdiv_lt_0_compat; assumption).
  replace (2 / 1) with 2 by field. rewrite R_pow_pos by assumption. rewrite ln_mult by (try apply exp_pos; lra). unfold Rpower. rewrite ln_exp, ln_div, ln_exp by assumption.
  field.
Qed.
Theorem sln_gamma_accuracy z g : 1 / 2 <= z -> euler_gamma z g -> Rabs (sln_gamma z - ln g) <= 4 / 100000000000000000.
Proof.
  intros Hz Hg. rewrite sln_gamma_F by assumption. pose proof PI_RGT_0 as PP.
  set (l0 := ln (248574089138753565546 / 10000000000000000000000000)). set (K0 := ln 2 + 1 - 1 / 2 * ln PI).
  pose proof (la_accuracy lg_N 10 (10400511 / 1000000) 10 12 (1709 / 6000000000000000000) K0 l0 lg_S) as A.
  assert (B : Rabs (la_F (10400511 / 1000000) K0 lg_S z - ln g - (K0 + 10400511 / 1000000 + l0 - 1 / 2 * ln (2 * PI)))
              <= 1709 / 6000000000000000000 / (z + 12 - 1)).
  { apply A; clear A; try lra; try assumption.
    - exact lg_n_pos.
    - intros t Ht. apply pe_deg_of; [reflexivity|reflexivity|assumption].
    - exact lg_S_ln.
    - exact lg_lim.
    - intros t Ht. pose proof (ck_bound lg_N 10400511 1000000 10900511 10 12 1709 1000000000000000000 lg_n_pos t lg_ck Ht) as C.
      replace (6 * (1709 / 6000000000000000000)) with (1709 / 1000000000000000000) by field. exact C. }
  clear A.
  assert (E : K0 + 10400511 / 1000000 + l0 - 1 / 2 * ln (2 * PI) = 1 / 2 * ln 2 + 11400511 / 1000000 - ln PI + l0)
    by (unfold K0; rewrite ln_mult by lra; field).
  rewrite E in B. pose proof lg_const as C. fold l0 in C.
  assert (L2 : 1709 / 6000000000000000000 / (z + 12 - 1) <= 1709 / 6000000000000000000 * (2 / 23)).
  { unfold Rdiv at 1. apply Rmult_le_compat_l; [lra|]. replace (2 / 23) with (/ (23 / 2)) by field. apply Rinv_le_contravar; lra. }
  apply Rabs_le_between in B. apply Rabs_le_between in C. apply Rabs_le. lra.
Qed.
