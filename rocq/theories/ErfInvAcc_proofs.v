(** The inverse error function (error.rs:90-182) and the normal quantile (normal.rs:160-208) against
    the error function. *)
From Coq Require Import Arith Lia List Bool ZArith QArith Qreals Reals Lra Psatz.
From Coquelicot Require Import Coquelicot.
From Verif Require Import Outcome Scalar RealOps Elem_model Special_model Stat_model.
From Verif Require Import Stat_spec Continuous_proofs Gauss_proofs Normal_proofs Special_proofs.
From Verif Require Import Lanczos_proofs LanczosAcc_proofs LnGammaAcc_proofs PolyDom_proofs QuantGen_proofs ErfInv_proofs.
Import ListNotations.
Local Open Scope R_scope.

(** ** Positivity and the residual on each range *)
Ltac use_piece H y n d yn yd m := apply (pieces_ok _ _ _ _ n d yn yd m y H); [repeat (first [left; reflexivity|right])|lra].
Lemma e1_dom y : 0 <= y <= 9 / 16 -> 0 < pe e1_q y /\ 0 < pe (ca_B e1_p e1_q 9 16) y /\
  IZR 1500000000 * Rabs (pe (ca_num 2 e1_p e1_q 9 16) y) <= pe (ca_den e1_p e1_q 9 16) y.
Proof.
  intros Hy. destruct (ca_ck_ok _ _ _ _ _ _ _ e1_ck) as (H1 & H2 & H3).
  split; [apply (pos_ok _ y H1); lra|]. split; [apply (pos_ok _ y H2); lra|].
  destruct (Rle_dec y (1 / 8)); [use_piece H3 y 0%Z 1%Z 1%Z 8%Z 5%nat|].
  destruct (Rle_dec y (3 / 8)); [use_piece H3 y 1%Z 8%Z 1%Z 4%Z 4%nat|].
  use_piece H3 y 3%Z 8%Z 3%Z 16%Z 3%nat.
Qed.
Lemma e2_dom y : 0 <= y <= 81 / 256 -> 0 < pe e2_q y /\ 0 < pe (ca_B e2_p e2_q 225 256) y /\
  IZR 800000000 * Rabs (pe (ca_num 2 e2_p e2_q 225 256) y) <= pe (ca_den e2_p e2_q 225 256) y.
Proof.
  intros Hy. destruct (ca_ck_ok _ _ _ _ _ _ _ e2_ck) as (H1 & H2 & H3).
  split; [apply (pos_ok _ y H1); lra|]. split; [apply (pos_ok _ y H2); lra|].
  destruct (Rle_dec y (1 / 32)); [use_piece H3 y 0%Z 1%Z 1%Z 32%Z 4%nat|].
  destruct (Rle_dec y (3 / 32)); [use_piece H3 y 1%Z 32%Z 1%Z 16%Z 5%nat|].
  destruct (Rle_dec y (7 / 32)); [use_piece H3 y 3%Z 32%Z 1%Z 8%Z 7%nat|].
  use_piece H3 y 7%Z 32%Z 25%Z 256%Z 4%nat.
Qed.
Lemma e3_d_pos : pos_ck e3_d = true.
Proof. vm_compute. reflexivity. Qed.
Lemma n2_d_pos : pos_ck n2_d = true.
Proof. vm_compute. reflexivity. Qed.
Lemma e3_dom y : 33 / 20 <= y <= 5 -> 0 < pe e3_d y /\ 0 < pe (ta_a e3_n e3_d) y /\
  IZR 10000000000 * Rabs (pe (ta_num 2 e3_n e3_d 0 1) y) <= pe (ta_den e3_n e3_d 0 1) y.
Proof.
  intros Hy. destruct (ta_ck_ok _ _ _ _ _ _ _ e3_ck) as (H1 & H2 & H3).
  split; [apply (pos_ok e3_d y e3_d_pos); lra|]. split; [apply (pe_pos_gen _ y H1 H2); lra|].
  use_piece H3 y 33%Z 20%Z 67%Z 20%Z 23%nat.
Qed.
Lemma n1_dom y : 0 <= y <= 289 / 1600 -> 0 < pe n1_q y /\ 0 < pe (ca_B n1_p n1_q 289 1600) y /\
  IZR 550000000 * Rabs (pe (ca_num 1 n1_p n1_q 289 1600) y) <= pe (ca_den n1_p n1_q 289 1600) y.
Proof.
  intros Hy. destruct (ca_ck_ok _ _ _ _ _ _ _ n1_ck) as (H1 & H2 & H3).
  split; [apply (pos_ok _ y H1); lra|]. split; [apply (pos_ok _ y H2); lra|].
  destruct (Rle_dec y (1 / 64)); [use_piece H3 y 0%Z 1%Z 1%Z 64%Z 4%nat|].
  destruct (Rle_dec y (5 / 64)); [use_piece H3 y 1%Z 64%Z 1%Z 16%Z 8%nat|].
  destruct (Rle_dec y (9 / 64)); [use_piece H3 y 5%Z 64%Z 1%Z 16%Z 6%nat|].
  use_piece H3 y 9%Z 64%Z 1%Z 25%Z 3%nat.
Qed.
Lemma n2_a_head : pos_ck (ta_a n2_n n2_d) = true.
Proof. vm_compute. reflexivity. Qed.
Lemma n2_dom y : 0 <= y <= 17 / 5 -> 0 < pe n2_d y /\ 0 < pe (ta_a n2_n n2_d) y /\
  IZR 30000000000 * Rabs (pe (ta_num 1 n2_n n2_d 8 5) y) <= pe (ta_den n2_n n2_d 8 5) y.
Proof.
  intros Hy. destruct (ta_ck_ok _ _ _ _ _ _ _ n2_ck) as (H1 & H2 & H3).
  split; [apply (pos_ok n2_d y n2_d_pos); lra|]. split; [apply (pos_ok _ y n2_a_head); lra|].
  destruct (Rle_dec y (1 / 1)); [use_piece H3 y 0%Z 1%Z 1%Z 1%Z 10%nat|].
  destruct (Rle_dec y (2 / 1)); [use_piece H3 y 1%Z 1%Z 1%Z 1%Z 10%nat|].
  destruct (Rle_dec y (3 / 1)); [use_piece H3 y 2%Z 1%Z 1%Z 1%Z 5%nat|].
  use_piece H3 y 3%Z 1%Z 2%Z 5%Z 2%nat.
Qed.

(** ** Constants *)
Lemma pi_low : 314159265358979323846 / 100000000000000000000 <= PI <= 314159265358979323847 / 100000000000000000000.
Proof. destruct PI_bounds as [A B]. unfold Q2R, pi_lo, pi_hi in *. cbn [Qnum Qden] in *. lra. Qed.
Lemma spi : 17724538509055160270 / 10000000000000000000 <= sqrt PI <= 17724538509055160275 / 10000000000000000000.
Proof.
  pose proof pi_low. split.
  - rewrite <- (sqrt_square (17724538509055160270 / 10000000000000000000)) by lra. apply sqrt_le_1_alt. lra.
  - rewrite <- (sqrt_square (17724538509055160275 / 10000000000000000000)) by lra. apply sqrt_le_1_alt. lra.
Qed.
Lemma s2pi : 25066282746310005020 / 10000000000000000000 <= sqrt (2 * PI) <= 25066282746310005028 / 10000000000000000000.
Proof.
  pose proof pi_low. split.
  - rewrite <- (sqrt_square (25066282746310005020 / 10000000000000000000)) by lra. apply sqrt_le_1_alt. lra.
  - rewrite <- (sqrt_square (25066282746310005028 / 10000000000000000000)) by lra. apply sqrt_le_1_alt. lra.
Qed.
Definition cerf : R := 2 / sqrt PI.
Definition cphi : R := / sqrt (2 * PI).
Lemma cerf_pos : 0 < cerf.
Proof. pose proof spi. apply Rdiv_lt_0_compat; lra. Qed.
Lemma cerf_le : cerf <= 113 / 100.
Proof.
  pose proof spi. unfold cerf. apply Rmult_le_reg_r with (sqrt PI); [lra|].
  replace (2 / sqrt PI * sqrt PI) with 2 by (field; lra). lra.
Qed.
Lemma cphi_pos : 0 < cphi.
Proof. pose proof s2pi. apply Rinv_0_lt_compat. lra. Qed.
Lemma cphi_le : cphi <= 2 / 5.
Proof. pose proof s2pi. unfold cphi. apply Rmult_le_reg_r with (sqrt (2 * PI)); [lra|]. rewrite Rinv_l by lra. lra. Qed.
Lemma erf_HF v : is_derive erf_true v (cerf * exp (- (IZR 2 / 2 * (v * v)))).
Proof. replace (IZR 2 / 2 * (v * v)) with (v * v) by lra. apply erf_true_derive. Qed.
Definition Phi0 (v : R) : R := Phi v - 1 / 2.
Lemma Phi_HF v : is_derive Phi v (cphi * exp (- (IZR 1 / 2 * (v * v)))).
Proof. replace (- (IZR 1 / 2 * (v * v))) with (- (v * v) / 2) by lra. apply Phi_derive. Qed.
Lemma Phi0_HF v : is_derive Phi0 v (cphi * exp (- (IZR 1 / 2 * (v * v)))).
Proof.
  unfold Phi0. replace (cphi * exp (- (IZR 1 / 2 * (v * v)))) with (minus (cphi * exp (- (IZR 1 / 2 * (v * v)))) 0) by (unfold minus, plus, opp; cbn; ring).
  apply (is_derive_minus Phi (fun _ => 1 / 2)); [apply Phi_HF|]. auto_derive; [exact I|reflexivity].
Qed.

(** ** Joining two pieces *)
Lemma ln_join c a b m d : 0 < c -> 0 < a -> 0 < b -> 0 <= d <= 1 / 1000 -> Rabs (a - b) <= d * b -> 
  Rabs (ln (c * a) - ln (c * b) - m) <= 51 / 50 * d + Rabs m.
Proof.
  intros Hc Ha Hb Hd H. replace (ln (c * a) - ln (c * b) - m) with (ln (a / b) + - m).
  - eapply Rle_trans; [apply Rabs_triang|]. rewrite Rabs_Ropp. apply Rplus_le_compat_r. apply ln_small; [|lra].
    replace (a / b - 1) with ((a - b) / b) by (field; lra). rewrite Rabs_div by lra. rewrite (Rabs_pos_eq b) by lra.
    apply Rmult_le_reg_r with b; [assumption|]. unfold Rdiv. rewrite Rmult_assoc, Rinv_l by lra. lra.
  - rewrite !ln_mult by assumption. unfold Rdiv. rewrite ln_mult, ln_Rinv; [lra|assumption|assumption|now apply Rinv_0_lt_compat].
Qed.

(** ** Values at the joins *)
Lemma exp_le_inv x y : exp x <= exp y -> x <= y.
Proof. intros H. destruct (Rle_dec x y) as [|N]; [assumption|]. pose proof (exp_increasing y x ltac:(lra)). lra. Qed.
Lemma ca_z1_bd p q cn cd x n d lo hi e : rat_ck (ca_B p q cn cd) (pscale cd (pmul q q)) n d lo hi e = true ->
  ca_y cn cd x = IZR n / IZR d -> IZR lo / IZR e <= ca_z1 p q cn cd x <= IZR hi / IZR e.
Proof. intros H Y. destruct (rat_bounds _ _ _ _ _ _ _ H) as [_ K]. rewrite pe_scale, pe_mul in K. unfold ca_z1. rewrite Y. exact K. Qed.
Lemma ca_z_bd p q cn cd x n d lo hi e : rat_ck p q n d lo hi e = true -> 0 <= x ->
  ca_y cn cd x = IZR n / IZR d -> x * (IZR lo / IZR e) <= ca_z p q cn cd x <= x * (IZR hi / IZR e).
Proof.
  intros H X Y. destruct (rat_bounds _ _ _ _ _ _ _ H) as [_ K]. unfold ca_z. rewrite Y. unfold Rdiv at 2 5. rewrite !Rmult_assoc.
  split; apply Rmult_le_compat_l; try assumption; apply K.
Qed.
Lemma ta_z1_bd N D rn rd r n d lo hi e : rat_ck (ta_a N D) (pmul D D) n d lo hi e = true ->
  ta_y rn rd r = IZR n / IZR d -> IZR lo / IZR e <= ta_z1 N D rn rd r <= IZR hi / IZR e.
Proof. intros H Y. destruct (rat_bounds _ _ _ _ _ _ _ H) as [_ K]. rewrite pe_mul in K. unfold ta_z1. rewrite Y. exact K. Qed.
Lemma ta_z_bd N D rn rd r n d lo hi e : rat_ck N D n d lo hi e = true ->
  ta_y rn rd r = IZR n / IZR d -> IZR lo / IZR e <= ta_z N D rn rd r <= IZR hi / IZR e.
Proof. intros H Y. destruct (rat_bounds _ _ _ _ _ _ _ H) as [_ K]. unfold ta_z. rewrite Y. exact K. Qed.
Lemma e1a_z1 : 8862269254527548 / 10000000000000000 <= ca_z1 e1_p e1_q 9 16 0 <= 8862269254527549 / 10000000000000000.
Proof. apply (ca_z1_bd _ _ _ _ _ 9 16 8862269254527548 8862269254527549 10000000000000000); [vm_compute; reflexivity|unfold ca_y; lra]. Qed.
Lemma e1b_z1 : 17174997693649002 / 10000000000000000 <= ca_z1 e1_p e1_q 9 16 (3 / 4) <= 17174997693649003 / 10000000000000000.
Proof. apply (ca_z1_bd _ _ _ _ _ 0 1 17174997693649002 17174997693649003 10000000000000000); [vm_compute; reflexivity|unfold ca_y; lra]. Qed.
Lemma e1b_z : (3 / 4) * (10845597967965617 / 10000000000000000) <= ca_z e1_p e1_q 9 16 (3 / 4) <= (3 / 4) * (10845597967965618 / 10000000000000000).
Proof. apply (ca_z_bd _ _ _ _ _ 0 1 10845597967965617 10845597967965618 10000000000000000); [vm_compute; reflexivity|lra|unfold ca_y; lra]. Qed.
Lemma e2a_z1 : 17174997693674360 / 10000000000000000 <= ca_z1 e2_p e2_q 225 256 (3 / 4) <= 17174997693674361 / 10000000000000000.
Proof. apply (ca_z1_bd _ _ _ _ _ 81 256 17174997693674360 17174997693674361 10000000000000000); [vm_compute; reflexivity|unfold ca_y; lra]. Qed.
Lemma e2a_z : (3 / 4) * (10845597967968293 / 10000000000000000) <= ca_z e2_p e2_q 225 256 (3 / 4) <= (3 / 4) * (10845597967968294 / 10000000000000000).
Proof. apply (ca_z_bd _ _ _ _ _ 81 256 10845597967968293 10845597967968294 10000000000000000); [vm_compute; reflexivity|lra|unfold ca_y; lra]. Qed.
Lemma e2b_z1 : 50233787613096990 / 10000000000000000 <= ca_z1 e2_p e2_q 225 256 (15 / 16) <= 50233787613096991 / 10000000000000000.
Proof. apply (ca_z1_bd _ _ _ _ _ 0 1 50233787613096990 50233787613096991 10000000000000000); [vm_compute; reflexivity|unfold ca_y; lra]. Qed.
Lemma e2b_z : (15 / 16) * (14049603573189234 / 10000000000000000) <= ca_z e2_p e2_q 225 256 (15 / 16) <= (15 / 16) * (14049603573189235 / 10000000000000000).
Proof. apply (ca_z_bd _ _ _ _ _ 0 1 14049603573189234 14049603573189235 10000000000000000); [vm_compute; reflexivity|lra|unfold ca_y; lra]. Qed.
Lemma e3a_z1 : 10455592878263488 / 10000000000000000 <= ta_z1 e3_n e3_d 0 1 (333021844463079 / 200000000000000) <= 10455592878263489 / 10000000000000000.
Proof. apply (ta_z1_bd _ _ _ _ _ 333021844463079 200000000000000 10455592878263488 10455592878263489 10000000000000000); [vm_compute; reflexivity|unfold ta_y; lra]. Qed.
Lemma e3a_z : 13171503349860298 / 10000000000000000 <= ta_z e3_n e3_d 0 1 (333021844463079 / 200000000000000) <= 13171503349860299 / 10000000000000000.
Proof. apply (ta_z_bd _ _ _ _ _ 333021844463079 200000000000000 13171503349860298 13171503349860299 10000000000000000); [vm_compute; reflexivity|unfold ta_y; lra]. Qed.
Lemma n1a_z1 : 25066282746310509 / 10000000000000000 <= ca_z1 n1_p n1_q 289 1600 0 <= 25066282746310510 / 10000000000000000.
Proof. apply (ca_z1_bd _ _ _ _ _ 289 1600 25066282746310509 25066282746310510 10000000000000000); [vm_compute; reflexivity|unfold ca_y; lra]. Qed.
Lemma n1b_z1 : 70643708543161128 / 10000000000000000 <= ca_z1 n1_p n1_q 289 1600 (17 / 40) <= 70643708543161129 / 10000000000000000.
Proof. apply (ca_z1_bd _ _ _ _ _ 0 1 70643708543161128 70643708543161129 10000000000000000); [vm_compute; reflexivity|unfold ca_y; lra]. Qed.
Lemma n1b_z : (17 / 40) * (33871328727982472 / 10000000000000000) <= ca_z n1_p n1_q 289 1600 (17 / 40) <= (17 / 40) * (33871328727982473 / 10000000000000000).
Proof. apply (ca_z_bd _ _ _ _ _ 0 1 33871328727982472 33871328727982473 10000000000000000); [vm_compute; reflexivity|lra|unfold ca_y; lra]. Qed.
Lemma n2a_z1 : 17054422951961573 / 10000000000000000 <= ta_z1 n2_n n2_d 8 5 (12573677313031 / 7812500000000) <= 17054422951961574 / 10000000000000000.
Proof. apply (ta_z1_bd _ _ _ _ _ 73677313031 7812500000000 17054422951961573 17054422951961574 10000000000000000); [vm_compute; reflexivity|unfold ta_y; lra]. Qed.
Lemma n2a_z : 14395314709384307 / 10000000000000000 <= ta_z n2_n n2_d 8 5 (12573677313031 / 7812500000000) <= 14395314709384308 / 10000000000000000.
Proof. apply (ta_z_bd _ _ _ _ _ 73677313031 7812500000000 14395314709384307 14395314709384308 10000000000000000); [vm_compute; reflexivity|unfold ta_y; lra]. Qed.
Lemma n2b_z : 66579046435011840 / 10000000000000000 <= ta_z n2_n n2_d 8 5 5 <= 66579046435011841 / 10000000000000000.
Proof. apply (ta_z_bd _ _ _ _ _ 17 5 66579046435011840 66579046435011841 10000000000000000); [vm_compute; reflexivity|unfold ta_y; lra]. Qed.
Lemma n3a_z : 66579046435011037 / 10000000000000000 <= ta_z n3_n n3_d 5 1 5 <= 66579046435011038 / 10000000000000000.
Proof. apply (ta_z_bd _ _ _ _ _ 0 1 66579046435011037 66579046435011038 10000000000000000); [vm_compute; reflexivity|unfold ta_y; lra]. Qed.
Lemma le_lo : (333021844463079 / 200000000000000) * (333021844463079 / 200000000000000) <= ln 16.
Proof.
  destruct (zexp_bounds 110903548889591181209794160241 40000000000000000000000000000 0 16 1 40 ltac:(vm_compute; reflexivity)) as [_ K].
  replace ((333021844463079 / 200000000000000) * (333021844463079 / 200000000000000)) with (110903548889591181209794160241 / 40000000000000000000000000000) by lra.
  apply exp_le_inv. rewrite exp_ln by lra. lra.
Qed.
Lemma le_hi : ln 16 <= (333021844463079 / 200000000000000) * (333021844463079 / 200000000000000) + (1 / 100000000000000).
Proof.
  destruct (zexp_bounds 110903548889591581209794160241 40000000000000000000000000000 16 1000 1 40 ltac:(vm_compute; reflexivity)) as [K _].
  replace ((333021844463079 / 200000000000000) * (333021844463079 / 200000000000000) + (1 / 100000000000000)) with (110903548889591581209794160241 / 40000000000000000000000000000) by lra.
  apply exp_le_inv. rewrite exp_ln by lra. lra.
Qed.
Lemma ln40_lo : (12573677313031 / 7812500000000) * (12573677313031 / 7812500000000) <= ln (40 / 3).
Proof.
  destruct (zexp_bounds 158097361172230467962406961 61035156250000000000000000 0 40 3 40 ltac:(vm_compute; reflexivity)) as [_ K].
  replace ((12573677313031 / 7812500000000) * (12573677313031 / 7812500000000)) with (158097361172230467962406961 / 61035156250000000000000000) by lra.
  apply exp_le_inv. rewrite exp_ln by lra. lra.
Qed.
Lemma ln40_hi : ln (40 / 3) <= (12573677313031 / 7812500000000) * (12573677313031 / 7812500000000) + (1 / 100000000000000).
Proof.
  destruct (zexp_bounds 158097361172231078313969461 61035156250000000000000000 40 1000 3 40 ltac:(vm_compute; reflexivity)) as [K _].
  replace ((12573677313031 / 7812500000000) * (12573677313031 / 7812500000000) + (1 / 100000000000000)) with (158097361172231078313969461 / 61035156250000000000000000) by lra.
  apply exp_le_inv. rewrite exp_ln by lra. lra.
Qed.

(** ** The accuracy of the rounded approximations *)
Lemma sq_close a b M d k : 0 <= k -> 0 <= a <= M -> 0 <= b <= M -> Rabs (a - b) <= d -> Rabs (k * (a * a) - k * (b * b)) <= k * (2 * M * d).
Proof.
  intros Hk Ha Hb H. replace (k * (a * a) - k * (b * b)) with (k * ((a - b) * (a + b))) by ring.
  rewrite !Rabs_mult, (Rabs_pos_eq k), (Rabs_pos_eq (a + b)) by lra. apply Rmult_le_compat_l; [assumption|].
  replace (2 * M * d) with (d * (2 * M)) by ring. apply Rmult_le_compat; try apply Rabs_pos; lra.
Qed.
Lemma ca_y0 a b x hi : (0 < b)%Z -> 0 <= x <= hi -> hi * hi <= IZR a / IZR b -> 0 <= ca_y a b x <= IZR a / IZR b.
Proof. intros Hb Hx H. unfold ca_y. assert (0 <= x * x <= hi * hi) by nra. lra. Qed.
Lemma e1_G0 : Rabs (ca_G cerf 2 e1_p e1_q 9 16 0) <= 1 / 10000000000000.
Proof.
  pose proof e1a_z1 as Z. pose proof spi as S. unfold ca_G. replace (ca_z e1_p e1_q 9 16 0) with 0 by (unfold ca_z, Rdiv; ring).
  set (z := ca_z1 e1_p e1_q 9 16 0) in *. replace (ln (cerf * z) - IZR 2 / 2 * (0 * 0)) with (ln (cerf * z)) by ring.
  eapply Rle_trans; [apply (ln_small _ (9 / 100000000000000))|]; try lra.
  unfold cerf. replace (2 / sqrt PI * z - 1) with ((2 * z - sqrt PI) / sqrt PI) by (field; lra).
  rewrite Rabs_div by lra. rewrite (Rabs_pos_eq (sqrt PI)) by lra. apply Rmult_le_reg_r with (sqrt PI); [lra|].
  replace (Rabs (2 * z - sqrt PI) / sqrt PI * sqrt PI) with (Rabs (2 * z - sqrt PI)) by (field; lra). apply Rabs_le. lra.
Qed.
Lemma e1_bound x : 0 <= x <= 3 / 4 ->
  Rabs (ca_G cerf 2 e1_p e1_q 9 16 x) <= 1 / 10000000000000 + x * x / 1500000000 /\
  Rabs (erf_true (ca_z e1_p e1_q 9 16 x) - x) <= 39 / 100000000000 * x.
Proof.
  intros Hx. assert (X2 : 0 <= x * x <= 9 / 16) by nra.
  destruct (ca_bound erf_true cerf 2 cerf_pos erf_HF e1_p e1_q 9 16 ltac:(lia) 1500000000 0 x (1 / 10000000000000)) as [A B].
  - lra.
  - lia.
  - intros t Ht. apply e1_dom. apply (ca_y0 9 16 t x); [lia|lra|lra].
  - apply e1_G0.
  - lra.
  - replace (x * x - 0 * 0) with (x * x) in A, B by ring. split; [exact A|].
    unfold ca_E in B. replace (ca_z e1_p e1_q 9 16 0) with 0 in B by (unfold ca_z, Rdiv; ring). rewrite erf_true_0 in B.
    replace (erf_true (ca_z e1_p e1_q 9 16 x) - x - (0 - 0)) with (erf_true (ca_z e1_p e1_q 9 16 x) - x) in B by ring.
    eapply Rle_trans; [exact B|]. replace (x - 0) with x by ring. apply Rmult_le_compat_r; lra.
Qed.
Lemma e2_G0 : Rabs (ca_G cerf 2 e2_p e2_q 225 256 (3 / 4)) <= 38 / 100000000000.
Proof.
  destruct (e1_bound (3 / 4) ltac:(lra)) as [K _]. pose proof e1b_z1. pose proof e1b_z. pose proof e2a_z1. pose proof e2a_z.
  unfold ca_G in *.
  set (a := ca_z1 e1_p e1_q 9 16 (3 / 4)) in *. set (b := ca_z1 e2_p e2_q 225 256 (3 / 4)) in *.
  set (u := ca_z e1_p e1_q 9 16 (3 / 4)) in *. set (v := ca_z e2_p e2_q 225 256 (3 / 4)) in *.
  pose proof (ln_join cerf b a (IZR 2 / 2 * (v * v) - IZR 2 / 2 * (u * u)) (2 / 1000000000000) cerf_pos ltac:(lra) ltac:(lra) ltac:(lra) ltac:(apply Rabs_le; lra)) as J.
  pose proof (sq_close v u 1 (1 / 1000000000000) (IZR 2 / 2) ltac:(lra) ltac:(lra) ltac:(lra) ltac:(apply Rabs_le; lra)) as Q.
  pose proof (Rabs_triang (ln (cerf * b) - ln (cerf * a) - (IZR 2 / 2 * (v * v) - IZR 2 / 2 * (u * u))) (ln (cerf * a) - IZR 2 / 2 * (u * u))) as T.
  replace (ln (cerf * b) - ln (cerf * a) - (IZR 2 / 2 * (v * v) - IZR 2 / 2 * (u * u)) + (ln (cerf * a) - IZR 2 / 2 * (u * u)))
    with (ln (cerf * b) - IZR 2 / 2 * (v * v)) in T by ring.
  lra.
Qed.
Lemma e2_bound x : 3 / 4 <= x <= 15 / 16 ->
  Rabs (ca_G cerf 2 e2_p e2_q 225 256 x) <= 78 / 100000000000 /\
  Rabs (erf_true (ca_z e2_p e2_q 225 256 x) - x) <= 45 / 100000000000.
Proof.
  intros Hx. assert (X2 : 9 / 16 <= x * x <= 225 / 256) by nra.
  destruct (ca_bound erf_true cerf 2 cerf_pos erf_HF e2_p e2_q 225 256 ltac:(lia) 800000000 (3 / 4) x (38 / 100000000000)) as [A B].
  - lra.
  - lia.
  - intros t Ht. apply e2_dom. assert (9 / 16 <= t * t <= x * x) by nra. unfold ca_y. lra.
  - apply e2_G0.
  - lra.
  - split; [lra|]. unfold ca_E in B. destruct (e1_bound (3 / 4) ltac:(lra)) as [_ K].
    pose proof (F_lip erf_true cerf 2 cerf_pos erf_HF (ca_z e2_p e2_q 225 256 (3 / 4)) (ca_z e1_p e1_q 9 16 (3 / 4)) ltac:(lia)) as L.
    pose proof e1b_z. pose proof e2a_z. pose proof cerf_le. pose proof cerf_pos.
    set (u := ca_z e1_p e1_q 9 16 (3 / 4)) in *. set (v := ca_z e2_p e2_q 225 256 (3 / 4)) in *.
    assert (D : Rabs (v - u) <= 1 / 1000000000000) by (apply Rabs_le; lra).
    assert (L' : Rabs (erf_true v - erf_true u) <= 2 / 1000000000000).
    { eapply Rle_trans; [exact L|]. apply Rle_trans with (113 / 100 * (1 / 1000000000000)); [|lra].
      apply Rmult_le_compat; try apply Rabs_pos; lra. }
    assert (B' : Rabs (erf_true (ca_z e2_p e2_q 225 256 x) - x - (erf_true v - 3 / 4)) <= 51 / 50 * (38 / 100000000000 + (225 / 256 - 9 / 16) / 800000000) * (15 / 16 - 3 / 4)).
    { eapply Rle_trans; [exact B|]. apply Rmult_le_compat; lra. }
    apply Rabs_le_between in B'. apply Rabs_le_between in L'. apply Rabs_le_between in K. apply Rabs_le. lra.
Qed.
(** The tail from [ra], just below sqrt (ln 16). *)
Definition ra_e : R := 333021844463079 / 200000000000000.
Lemma e3_y r : ta_y 0 1 r = r.
Proof. unfold ta_y. lra. Qed.
Lemma e3_G0 : Rabs (ta_G cerf 2 e3_n e3_d 0 1 ra_e) <= 80 / 100000000000.
Proof.
  destruct (e2_bound (15 / 16) ltac:(lra)) as [K _]. pose proof e2b_z1. pose proof e2b_z. pose proof e3a_z1. pose proof e3a_z.
  pose proof le_lo as L1. pose proof le_hi as L2. fold ra_e in *. assert (RA : ra_e = 333021844463079 / 200000000000000) by reflexivity.
  unfold ca_G, ta_G in *.
  set (a := ca_z1 e2_p e2_q 225 256 (15 / 16)) in *. set (b := ta_z1 e3_n e3_d 0 1 ra_e) in *.
  set (u := ca_z e2_p e2_q 225 256 (15 / 16)) in *. set (v := ta_z e3_n e3_d 0 1 ra_e) in *.
  set (b' := b * 8 / ra_e).
  assert (Hb : 5023378761290 / 1000000000000 <= b' <= 5023378761295 / 1000000000000).
  { unfold b'. split; [apply Rmult_le_reg_r with ra_e|apply Rmult_le_reg_r with ra_e]; try lra;
      replace (b * 8 / ra_e * ra_e) with (b * 8) by (field; lra); lra. }
  assert (E : cerf * b / (2 * ra_e) = cerf * b' / 16) by (unfold b'; field; lra).
  assert (E2 : ln (cerf * b / (2 * ra_e)) = ln (cerf * b') - ln 16).
  { rewrite E. unfold Rdiv. pose proof cerf_pos. rewrite ln_mult; [rewrite ln_Rinv by lra; ring|apply Rmult_lt_0_compat; lra|lra]. }
  rewrite E2.
  pose proof (ln_join cerf b' a (IZR 2 / 2 * (v * v) - IZR 2 / 2 * (u * u)) (5 / 1000000000000) cerf_pos ltac:(lra) ltac:(lra) ltac:(lra) ltac:(apply Rabs_le; lra)) as J.
  pose proof (sq_close v u 2 (1 / 1000000000000) (IZR 2 / 2) ltac:(lra) ltac:(lra) ltac:(lra) ltac:(apply Rabs_le; lra)) as Q.
  assert (J2 : Rabs (ln (cerf * b') - ln (cerf * a) - (IZR 2 / 2 * (v * v) - IZR 2 / 2 * (u * u))) <= 12 / 1000000000000) by lra.
  apply Rabs_le_between in J2. apply Rabs_le_between in K. apply Rabs_le. lra.
Qed.
Lemma exp_up a b : a <= b -> exp a <= exp b.
Proof. intros [H|H]; [left; now apply exp_increasing|rewrite H; lra]. Qed.
Lemma exp_neg_gap a L d : a <= L -> L <= a + d -> 0 <= d -> exp (- L) <= exp (- a) <= exp (- L) * (1 + 51 / 50 * d) \/ 1 / 100 < d.
Proof.
  intros H1 H2 Hd. destruct (Rle_dec d (1 / 100)) as [S|]; [left|right; lra].
  replace (- a) with (- L + (L - a)) by ring. rewrite exp_plus.
  assert (G : Rabs (exp (L - a) - 1) <= 51 / 50 * d) by (apply exp_small; [apply Rabs_le; lra|lra]).
  apply Rabs_le_between in G. pose proof (exp_pos (- L)). pose proof (exp_ineq1_le (L - a)).
  split.
  - rewrite <- (Rmult_1_r (exp (- L))) at 1. apply Rmult_le_compat_l; lra.
  - apply Rmult_le_compat_l; lra.
Qed.
Lemma e3_bound r : ra_e <= r <= 5 -> Rabs (erf_true (ta_z e3_n e3_d 0 1 r) - (1 - exp (- (r * r)))) <= 53 / 100000000000.
Proof.
  intros Hr. assert (RA : ra_e = 333021844463079 / 200000000000000) by reflexivity.
  destruct (ta_bound erf_true cerf 2 cerf_pos erf_HF e3_n e3_d 0 1 ltac:(lia) 10000000000 ra_e r (80 / 100000000000)) as [_ B].
  - lra.
  - lia.
  - intros t Ht. rewrite e3_y. apply e3_dom. lra.
  - apply e3_G0.
  - lra.
  - unfold ta_E in B. destruct (e2_bound (15 / 16) ltac:(lra)) as [_ K].
    pose proof (F_lip erf_true cerf 2 cerf_pos erf_HF (ta_z e3_n e3_d 0 1 ra_e) (ca_z e2_p e2_q 225 256 (15 / 16)) ltac:(lia)) as L.
    pose proof e2b_z. pose proof e3a_z. fold ra_e in *. clear RA. assert (RA : ra_e = 333021844463079 / 200000000000000) by reflexivity. pose proof cerf_le. pose proof cerf_pos.
    set (u := ca_z e2_p e2_q 225 256 (15 / 16)) in *. set (v := ta_z e3_n e3_d 0 1 ra_e) in *.
    assert (D : Rabs (v - u) <= 1 / 1000000000000) by (apply Rabs_le; lra).
    assert (L' : Rabs (erf_true v - erf_true u) <= 2 / 1000000000000).
    { eapply Rle_trans; [exact L|]. apply Rle_trans with (113 / 100 * (1 / 1000000000000)); [|lra].
      apply Rmult_le_compat; try apply Rabs_pos; lra. }
    destruct (exp_neg_gap (ra_e * ra_e) (ln 16) (1 / 100000000000000) le_lo le_hi ltac:(lra)) as [G|]; [|lra].
    rewrite exp_Ropp, exp_ln in G by lra. pose proof (exp_pos (- (r * r))).
    assert (MR : exp (- (r * r)) <= exp (- (ra_e * ra_e))) by (apply exp_up, Ropp_le_contravar, Rmult_le_compat; lra).
    assert (B' : Rabs (erf_true (ta_z e3_n e3_d 0 1 r) - (1 - exp (- (r * r))) - (erf_true v - (1 - exp (- (ra_e * ra_e))))) <= 51 / 50 * (80 / 100000000000 + (5 - ra_e) / 10000000000) * (1 / 15)).
    { eapply Rle_trans; [exact B|]. apply Rmult_le_compat; lra. }
    apply Rabs_le_between in B'. apply Rabs_le_between in L'. apply Rabs_le_between in K. apply Rabs_le. lra.
Qed.
Lemma n1_G0 : Rabs (ca_G cphi 1 n1_p n1_q 289 1600 0) <= 1 / 10000000000000.
Proof.
  pose proof n1a_z1 as Z. pose proof s2pi as S. unfold ca_G. replace (ca_z n1_p n1_q 289 1600 0) with 0 by (unfold ca_z, Rdiv; ring).
  set (z := ca_z1 n1_p n1_q 289 1600 0) in *. replace (ln (cphi * z) - IZR 1 / 2 * (0 * 0)) with (ln (cphi * z)) by ring.
  eapply Rle_trans; [apply (ln_small _ (9 / 100000000000000))|]; try lra.
  unfold cphi. replace (/ sqrt (2 * PI) * z - 1) with ((z - sqrt (2 * PI)) / sqrt (2 * PI)) by (field; lra).
  rewrite Rabs_div by lra. rewrite (Rabs_pos_eq (sqrt (2 * PI))) by lra. apply Rmult_le_reg_r with (sqrt (2 * PI)); [lra|].
  replace (Rabs (z - sqrt (2 * PI)) / sqrt (2 * PI) * sqrt (2 * PI)) with (Rabs (z - sqrt (2 * PI))) by (field; lra). apply Rabs_le. lra.
Qed.
Lemma n1_bound x : 0 <= x <= 17 / 40 ->
  Rabs (ca_G cphi 1 n1_p n1_q 289 1600 x) <= 1 / 10000000000000 + x * x / 550000000 /\
  Rabs (Phi (ca_z n1_p n1_q 289 1600 x) - (1 / 2 + x)) <= 34 / 100000000000 * x.
Proof.
  intros Hx. assert (X2 : 0 <= x * x <= 289 / 1600) by nra.
  destruct (ca_bound Phi0 cphi 1 cphi_pos Phi0_HF n1_p n1_q 289 1600 ltac:(lia) 550000000 0 x (1 / 10000000000000)) as [A B].
  - lra.
  - lia.
  - intros t Ht. apply n1_dom. apply (ca_y0 289 1600 t x); [lia|lra|lra].
  - apply n1_G0.
  - lra.
  - replace (x * x - 0 * 0) with (x * x) in A, B by ring. split; [exact A|].
    unfold ca_E, Phi0 in B. replace (ca_z n1_p n1_q 289 1600 0) with 0 in B by (unfold ca_z, Rdiv; ring). rewrite Phi_0 in B.
    replace (Phi (ca_z n1_p n1_q 289 1600 x) - 1 / 2 - x - (1 / 2 - 1 / 2 - 0)) with (Phi (ca_z n1_p n1_q 289 1600 x) - (1 / 2 + x)) in B by ring.
    eapply Rle_trans; [exact B|]. replace (x - 0) with x by ring. apply Rmult_le_compat_r; lra.
Qed.
Definition ra_n : R := 12573677313031 / 7812500000000.
Lemma n2_G0 : Rabs (ta_G cphi 1 n2_n n2_d 8 5 ra_n) <= 35 / 100000000000.
Proof.
  destruct (n1_bound (17 / 40) ltac:(lra)) as [K _]. pose proof n1b_z1. pose proof n1b_z. pose proof n2a_z1. pose proof n2a_z.
  pose proof ln40_lo as L1. pose proof ln40_hi as L2. fold ra_n in *. assert (RA : ra_n = 12573677313031 / 7812500000000) by reflexivity.
  unfold ca_G, ta_G in *.
  set (a := ca_z1 n1_p n1_q 289 1600 (17 / 40)) in *. set (b := ta_z1 n2_n n2_d 8 5 ra_n) in *.
  set (u := ca_z n1_p n1_q 289 1600 (17 / 40)) in *. set (v := ta_z n2_n n2_d 8 5 ra_n) in *.
  set (b' := b * 20 / (3 * ra_n)).
  assert (Hb : 7064370854292 / 1000000000000 <= b' <= 7064370854295 / 1000000000000).
  { unfold b'. split; [apply Rmult_le_reg_r with (3 * ra_n)|apply Rmult_le_reg_r with (3 * ra_n)]; try lra;
      replace (b * 20 / (3 * ra_n) * (3 * ra_n)) with (b * 20) by (field; lra); lra. }
  assert (E : cphi * b / (2 * ra_n) = cphi * b' / (40 / 3)) by (unfold b'; field; lra).
  assert (E2 : ln (cphi * b / (2 * ra_n)) = ln (cphi * b') - ln (40 / 3)).
  { rewrite E. unfold Rdiv at 1. pose proof cphi_pos. rewrite ln_mult; [rewrite ln_Rinv by lra; ring|apply Rmult_lt_0_compat; lra|lra]. }
  rewrite E2.
  pose proof (ln_join cphi b' a (IZR 1 / 2 * (v * v) - IZR 1 / 2 * (u * u)) (5 / 1000000000000) cphi_pos ltac:(lra) ltac:(lra) ltac:(lra) ltac:(apply Rabs_le; lra)) as J.
  pose proof (sq_close v u 2 (1 / 1000000000000) (IZR 1 / 2) ltac:(lra) ltac:(lra) ltac:(lra) ltac:(apply Rabs_le; lra)) as Q.
  assert (J2 : Rabs (ln (cphi * b') - ln (cphi * a) - (IZR 1 / 2 * (v * v) - IZR 1 / 2 * (u * u))) <= 12 / 1000000000000) by lra.
  apply Rabs_le_between in J2. apply Rabs_le_between in K. apply Rabs_le. lra.
Qed.
Lemma n2_bound r : ra_n <= r <= 5 -> Rabs (Phi (ta_z n2_n n2_d 8 5 r) - (1 - exp (- (r * r)))) <= 20 / 100000000000.
Proof.
  intros Hr. assert (RA : ra_n = 12573677313031 / 7812500000000) by reflexivity.
  destruct (ta_bound Phi cphi 1 cphi_pos Phi_HF n2_n n2_d 8 5 ltac:(lia) 30000000000 ra_n r (35 / 100000000000)) as [_ B].
  - lra.
  - lia.
  - intros t Ht. apply n2_dom. unfold ta_y. lra.
  - apply n2_G0.
  - lra.
  - unfold ta_E in B. destruct (n1_bound (17 / 40) ltac:(lra)) as [_ K].
    pose proof (F_lip Phi cphi 1 cphi_pos Phi_HF (ta_z n2_n n2_d 8 5 ra_n) (ca_z n1_p n1_q 289 1600 (17 / 40)) ltac:(lia)) as L.
    pose proof n1b_z. pose proof n2a_z. fold ra_n in *. clear RA. assert (RA : ra_n = 12573677313031 / 7812500000000) by reflexivity. pose proof cphi_le. pose proof cphi_pos.
    set (u := ca_z n1_p n1_q 289 1600 (17 / 40)) in *. set (v := ta_z n2_n n2_d 8 5 ra_n) in *.
    assert (D : Rabs (v - u) <= 1 / 1000000000000) by (apply Rabs_le; lra).
    assert (L' : Rabs (Phi v - Phi u) <= 1 / 1000000000000).
    { eapply Rle_trans; [exact L|]. apply Rle_trans with (2 / 5 * (1 / 1000000000000)); [|lra].
      apply Rmult_le_compat; try apply Rabs_pos; lra. }
    destruct (exp_neg_gap (ra_n * ra_n) (ln (40 / 3)) (1 / 100000000000000) ln40_lo ln40_hi ltac:(lra)) as [G|]; [|lra].
    rewrite exp_Ropp, exp_ln in G by lra. replace (/ (40 / 3)) with (3 / 40) in G by lra. pose proof (exp_pos (- (r * r))).
    assert (MR : exp (- (r * r)) <= exp (- (ra_n * ra_n))) by (apply exp_up, Ropp_le_contravar, Rmult_le_compat; lra).
    assert (B' : Rabs (Phi (ta_z n2_n n2_d 8 5 r) - (1 - exp (- (r * r))) - (Phi v - (1 - exp (- (ra_n * ra_n))))) <= 51 / 50 * (35 / 100000000000 + (5 - ra_n) / 30000000000) * (1 / 13)).
    { eapply Rle_trans; [exact B|]. apply Rmult_le_compat; lra. }
    apply Rabs_le_between in B'. apply Rabs_le_between in L'. apply Rabs_le_between in K. apply Rabs_le. lra.
Qed.
