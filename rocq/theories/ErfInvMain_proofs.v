(** Accuracy of the inverse error function and of the normal quantile, for the shipped coefficients. *)
From Coq Require Import Arith Lia List Bool ZArith QArith Qreals Reals Lra Psatz.
From Coquelicot Require Import Coquelicot.
From Verif Require Import Outcome Scalar RealOps Elem_model Special_model Stat_model.
From Verif Require Import Stat_spec Discrete_proofs OdeOrder_proofs Continuous_proofs Gauss_proofs Normal_proofs Special_proofs StatExtra_proofs StatNew_proofs DistAcc_proofs.
From Verif Require Import Lanczos_proofs LanczosAcc_proofs LnGammaAcc_proofs PolyDom_proofs QuantGen_proofs ErfInv_proofs ErfInvAcc_proofs.
Import ListNotations.
Local Open Scope R_scope.

(** ** From the rounded to the shipped coefficients *)
Lemma lip_scaled (F : R -> R) c k x u w e M : 0 < c -> (forall a b, Rabs (F a - F b) <= c * Rabs (a - b)) ->
  0 <= x -> Rabs (u - w) <= k * u -> 0 <= k -> x * u <= M -> c * k * M <= e -> Rabs (F (x * w) - F (x * u)) <= e.
Proof.
  intros Hc L Hx H Hk HM He. eapply Rle_trans; [apply L|].
  replace (x * w - x * u) with (- (x * (u - w))) by ring. rewrite Rabs_Ropp, Rabs_mult, (Rabs_pos_eq x) by lra.
  assert (x * Rabs (u - w) <= x * (k * u)) by (apply Rmult_le_compat_l; lra).
  apply Rle_trans with (c * (x * (k * u))); [apply Rmult_le_compat_l; lra|].
  replace (c * (x * (k * u))) with (c * k * (x * u)) by ring.
  apply Rle_trans with (c * k * M); [apply Rmult_le_compat_l; [apply Rmult_le_pos; lra|lra]|lra].
Qed.
Lemma erf_lip a b : Rabs (erf_true a - erf_true b) <= cerf * Rabs (a - b).
Proof. apply (F_lip erf_true cerf 2 cerf_pos erf_HF). lia. Qed.
Lemma Phi_lip a b : Rabs (Phi a - Phi b) <= cphi * Rabs (a - b).
Proof. apply (F_lip Phi cphi 1 cphi_pos Phi_HF). lia. Qed.
Lemma e1_size : piece_ck 10 e1_p (pscale 11 e1_q) (0, 1, 9, 16, 20%nat)%Z && pos_ck e1_p = true.
Proof. vm_compute. reflexivity. Qed.
Lemma e2_size : piece_ck 100 e2_p (pscale 141 e2_q) (0, 1, 81, 256, 20%nat)%Z && pos_ck e2_p = true.
Proof. vm_compute. reflexivity. Qed.
Lemma n1_size : piece_ck 10 n1_p (pscale 34 n1_q) (0, 1, 289, 1600, 20%nat)%Z && pos_ck n1_p = true.
Proof. vm_compute. reflexivity. Qed.
Lemma e3_n_pos : pnn e3_n && existsb (Z.ltb 0) e3_n = true.
Proof. vm_compute. reflexivity. Qed.
Lemma n2_n_pos : pos_ck n2_n = true.
Proof. vm_compute. reflexivity. Qed.
(** The shipped approximations. *)
Definition ez1 (x : R) : R := x * (pe e1_xp (9 / 16 - x * x) / pe e1_xq (9 / 16 - x * x)).
Definition ez2 (x : R) : R := x * (pe e2_xp (225 / 256 - x * x) / pe e2_xq (225 / 256 - x * x)).
Definition ez3 (r : R) : R := pe e3_xn r / pe e3_xd r.
Definition nz1 (x : R) : R := x * (pe n1_xp (289 / 1600 - x * x) / pe n1_xq (289 / 1600 - x * x)).
Definition nz2 (r : R) : R := pe n2_xn (r - 8 / 5) / pe n2_xd (r - 8 / 5).
Definition nz3 (r : R) : R := pe n3_n (r - 5) / pe n3_d (r - 5).
Lemma ratio_le P Q k e : 0 < Q -> 0 < e -> e * Rabs P <= k * Q -> P / Q <= k / e.
Proof.
  intros HQ He H. pose proof (Rle_abs P). apply Rmult_le_reg_r with (Q * e); [apply Rmult_lt_0_compat; lra|].
  replace (P / Q * (Q * e)) with (e * P) by (field; lra). replace (k / e * (Q * e)) with (k * Q) by (field; lra).
  eapply Rle_trans; [apply Rmult_le_compat_l; [lra|eassumption]|assumption].
Qed.
Lemma ez1_acc x : 0 <= x <= 3 / 4 -> Rabs (erf_true (ez1 x) - x) <= 50 / 100000000000 * x.
Proof.
  intros Hx. destruct (e1_bound x Hx) as [_ K]. assert (X2 : 0 <= x * x <= 9 / 16) by nra.
  set (y := 9 / 16 - x * x). assert (Hy : 0 <= y <= 9 / 16) by (unfold y; lra).
  pose proof e1_size as S. apply andb_prop in S. destruct S as [S Pp]. pose proof e1_cl as C. apply andb_prop in C. destruct C as [C1 C2].
  destruct (e1_dom y Hy) as (Q0 & _ & _). pose proof (pos_ok _ y Pp (proj1 Hy)) as P0.
  destruct (close_ratio _ _ _ _ _ _ _ _ _ _ _ _ _ y C1 C2 ltac:(lia) P0 Q0 ltac:(lra)) as [_ R].
  pose proof (piece_ok _ _ _ _ _ _ _ _ y S ltac:(lra)) as W. rewrite pe_scale in W. apply ratio_le in W; [|assumption|lra].
  unfold ca_z in K. change (ca_y 9 16 x) with y in K. unfold Rdiv at 1 in K. rewrite Rmult_assoc in K. fold (pe e1_p y / pe e1_q y) in K.
  unfold ez1. fold y. set (u := pe e1_p y / pe e1_q y) in *. set (w := pe e1_xp y / pe e1_xq y) in *.
  pose proof cerf_le. pose proof cerf_pos.
  assert (L : Rabs (erf_true (x * w) - erf_true (x * u)) <= 10 / 100000000000 * x).
  { apply (lip_scaled erf_true cerf (21 / 10 / IZR 30000000000) x u w _ (11 / 10 * x) cerf_pos erf_lip); try lra.
    - rewrite Rmult_comm. apply Rmult_le_compat_r; lra.
    - apply Rle_trans with (113 / 100 * (21 / 10 / IZR 30000000000) * (11 / 10 * x)); [|lra].
      apply Rmult_le_compat_r; [lra|]. apply Rmult_le_compat_r; lra. }
  apply Rabs_le_between in L. apply Rabs_le_between in K. apply Rabs_le. lra.
Qed.
Lemma ez2_acc x : 3 / 4 <= x <= 15 / 16 -> Rabs (erf_true (ez2 x) - x) <= 50 / 100000000000.
Proof.
  intros Hx. destruct (e2_bound x Hx) as [_ K]. assert (X2 : 9 / 16 <= x * x <= 225 / 256) by nra.
  set (y := 225 / 256 - x * x). assert (Hy : 0 <= y <= 81 / 256) by (unfold y; lra).
  pose proof e2_size as S. apply andb_prop in S. destruct S as [S Pp]. pose proof e2_cl as C. apply andb_prop in C. destruct C as [C1 C2].
  destruct (e2_dom y Hy) as (Q0 & _ & _). pose proof (pos_ok _ y Pp (proj1 Hy)) as P0.
  destruct (close_ratio _ _ _ _ _ _ _ _ _ _ _ _ _ y C1 C2 ltac:(lia) P0 Q0 ltac:(lra)) as [_ R].
  pose proof (piece_ok _ _ _ _ _ _ _ _ y S ltac:(lra)) as W. rewrite pe_scale in W. apply ratio_le in W; [|assumption|lra].
  unfold ca_z in K. change (ca_y 225 256 x) with y in K. unfold Rdiv at 1 in K. rewrite Rmult_assoc in K. fold (pe e2_p y / pe e2_q y) in K.
  assert (U0 : 0 < pe e2_p y / pe e2_q y) by now apply Rdiv_lt_0_compat.
  unfold ez2. fold y. set (u := pe e2_p y / pe e2_q y) in *. set (w := pe e2_xp y / pe e2_xq y) in *.
  pose proof cerf_le. pose proof cerf_pos.
  assert (L : Rabs (erf_true (x * w) - erf_true (x * u)) <= 4 / 100000000000).
  { apply (lip_scaled erf_true cerf (21 / 10 / IZR 100000000000) x u w _ (141 / 100) cerf_pos erf_lip); try lra.
    rewrite <- (Rmult_1_l (141 / 100)). apply Rmult_le_compat; lra. }
  apply Rabs_le_between in L. apply Rabs_le_between in K. apply Rabs_le. lra.
Qed.
Lemma e3_at5 : rat_ck e3_n e3_d 5 1 0 50 10 = true.
Proof. vm_compute. reflexivity. Qed.
Lemma e3_size r : ra_e <= r <= 5 -> ta_z e3_n e3_d 0 1 r <= 5.
Proof.
  intros Hr. assert (RA : ra_e = 333021844463079 / 200000000000000) by reflexivity.
  apply Rle_trans with (ta_z e3_n e3_d 0 1 5).
  - apply ta_mono; [lra|]. intros t Ht. rewrite e3_y. destruct (e3_dom t) as (A & B & _); [lra|]. now split.
  - destruct (rat_bounds _ _ _ _ _ _ _ e3_at5) as [_ B]. unfold ta_z. rewrite e3_y. replace (IZR 5 / IZR 1) with 5 in B by lra. lra.
Qed.
Lemma ez3_acc r : ra_e <= r <= 5 -> Rabs (erf_true (ez3 r) - (1 - exp (- (r * r)))) <= 77 / 100000000000.
Proof.
  intros Hr. pose proof (e3_bound r Hr) as K. pose proof (e3_size r Hr) as M. assert (RA : ra_e = 333021844463079 / 200000000000000) by reflexivity.
  pose proof e3_n_pos as S. apply andb_prop in S. destruct S as [S1 S2]. pose proof e3_cl as C. apply andb_prop in C. destruct C as [C1 C2].
  destruct (e3_dom r ltac:(lra)) as (Q0 & _ & _). pose proof (pe_pos_gen _ r S1 S2 ltac:(lra)) as P0.
  destruct (close_ratio _ _ _ _ _ _ _ _ _ _ _ _ _ r C1 C2 ltac:(lia) P0 Q0 ltac:(lra)) as [_ R].
  unfold ta_z in K, M. rewrite e3_y in K, M. unfold ez3.
  set (u := pe e3_n r / pe e3_d r) in *. set (w := pe e3_xn r / pe e3_xd r) in *.
  pose proof cerf_le. pose proof cerf_pos.
  assert (L : Rabs (erf_true (1 * w) - erf_true (1 * u)) <= 24 / 100000000000).
  { apply (lip_scaled erf_true cerf (21 / 10 / IZR 50000000000) 1 u w _ 5 cerf_pos erf_lip); try lra. }
  rewrite !Rmult_1_l in L.
  apply Rabs_le_between in L. apply Rabs_le_between in K. apply Rabs_le. lra.
Qed.
Lemma exp_25 : exp (Ropp 25) <= 2 / 100000000000.
Proof.
  destruct (zexp_bounds 25 1 70000000000 80000000000 1 90 ltac:(vm_compute; reflexivity)) as [K _].
  replace (IZR 25 / IZR 1) with 25 in K by lra. rewrite exp_Ropp. apply Rmult_le_reg_r with (exp 25); [apply exp_pos|].
  rewrite Rinv_l by (pose proof (exp_pos 25); lra). lra.
Qed.
Lemma le_of_lim (F : R -> R) v : (forall x y, x < y -> F x < F y) -> is_lim F p_infty 1 -> F v <= 1.
Proof.
  intros M L. apply (is_lim_le_loc (fun _ => F v) F p_infty (F v) 1); [|apply is_lim_const|exact L].
  exists v. intros y Hy. left. now apply M.
Qed.
Lemma erf_le1 v : erf_true v <= 1.
Proof. apply le_of_lim; [exact erf_true_mono|exact erf_true_lim_p]. Qed.
Lemma Phi_le1 v : Phi v <= 1.
Proof. apply le_of_lim; [exact Phi_mono|exact Phi_lim_p]. Qed.
Lemma up_mono n d rn lo hi : up_ck n d = true -> IZR rn <= lo -> 0 < lo -> lo <= hi -> (pos_ck (ta_a n d) = true \/ IZR rn < lo) ->
  pe n (lo - IZR rn) / pe d (lo - IZR rn) <= pe n (hi - IZR rn) / pe d (hi - IZR rn).
Proof.
  unfold up_ck. rewrite !andb_true_iff. intros (A & B & C) H0 Hl H Hp.
  pose proof (ta_mono n d rn 1 lo hi H) as K. unfold ta_z, ta_y in K. replace (IZR rn / 1) with (IZR rn) in K by lra. apply K.
  intros t Ht. split; [apply (pos_ok _ _ A); lra|]. destruct Hp as [Hp|Hp]; [apply (pos_ok _ _ Hp); lra|apply (pe_pos_gen _ _ B C); lra].
Qed.
Lemma ez3_tail r : ra_e <= r -> Rabs (erf_true (ez3 r) - (1 - exp (- (r * r)))) <= 80 / 100000000000.
Proof.
  intros Hr. assert (RA : ra_e = 333021844463079 / 200000000000000) by reflexivity. destruct (Rle_dec r 5) as [H5|H5].
  - eapply Rle_trans; [apply ez3_acc; lra|lra].
  - pose proof (ez3_acc 5 ltac:(lra)) as K. replace (5 * 5) with 25 in K by ring. pose proof exp_25 as X. pose proof (exp_pos (- (r * r))).
    assert (Y : exp (- (r * r)) <= exp (Ropp 25)) by (apply exp_up; nra).
    assert (U : ez3 5 <= ez3 r).
    { pose proof (up_mono e3_xn e3_xd 0 5 r e3_up ltac:(lra) ltac:(lra) ltac:(lra) ltac:(right; lra)) as U.
      replace (5 - IZR 0) with 5 in U by lra. replace (r - IZR 0) with r in U by lra. exact U. }
    assert (M : erf_true (ez3 5) <= erf_true (ez3 r)) by (destruct U as [U|U]; [left; now apply erf_true_mono|rewrite U; lra]).
    pose proof (erf_le1 (ez3 r)). apply Rabs_le_between in K. apply Rabs_le. lra.
Qed.
Lemma nz1_acc x : 0 <= x <= 17 / 40 -> Rabs (Phi (nz1 x) - (1 / 2 + x)) <= 42 / 100000000000 * x.
Proof.
  intros Hx. destruct (n1_bound x Hx) as [_ K]. assert (X2 : 0 <= x * x <= 289 / 1600) by nra.
  set (y := 289 / 1600 - x * x). assert (Hy : 0 <= y <= 289 / 1600) by (unfold y; lra).
  pose proof n1_size as S. apply andb_prop in S. destruct S as [S Pp]. pose proof n1_cl as C. apply andb_prop in C. destruct C as [C1 C2].
  destruct (n1_dom y Hy) as (Q0 & _ & _). pose proof (pos_ok _ y Pp (proj1 Hy)) as P0.
  destruct (close_ratio _ _ _ _ _ _ _ _ _ _ _ _ _ y C1 C2 ltac:(lia) P0 Q0 ltac:(lra)) as [_ R].
  pose proof (piece_ok _ _ _ _ _ _ _ _ y S ltac:(lra)) as W. rewrite pe_scale in W. apply ratio_le in W; [|assumption|lra].
  unfold ca_z in K. change (ca_y 289 1600 x) with y in K. unfold Rdiv at 1 in K. rewrite Rmult_assoc in K. fold (pe n1_p y / pe n1_q y) in K.
  unfold nz1. fold y. set (u := pe n1_p y / pe n1_q y) in *. set (w := pe n1_xp y / pe n1_xq y) in *.
  pose proof cphi_le. pose proof cphi_pos.
  assert (L : Rabs (Phi (x * w) - Phi (x * u)) <= 7 / 100000000000 * x).
  { apply (lip_scaled Phi cphi (21 / 10 / IZR 50000000000) x u w _ (34 / 10 * x) cphi_pos Phi_lip); try lra.
    - rewrite Rmult_comm. apply Rmult_le_compat_r; lra.
    - apply Rle_trans with (2 / 5 * (21 / 10 / IZR 50000000000) * (34 / 10 * x)); [|lra].
      apply Rmult_le_compat_r; [lra|]. apply Rmult_le_compat_r; lra. }
  apply Rabs_le_between in L. apply Rabs_le_between in K. apply Rabs_le. lra.
Qed.
Lemma nz2_acc r : 8 / 5 < r -> ra_n <= r <= 5 -> Rabs (Phi (nz2 r) - (1 - exp (- (r * r)))) <= 27 / 100000000000.
Proof.
  intros H85 Hr. pose proof (n2_bound r Hr) as K. assert (RA : ra_n = 12573677313031 / 7812500000000) by reflexivity.
  assert (M : ta_z n2_n n2_d 8 5 r <= 7).
  { apply Rle_trans with (ta_z n2_n n2_d 8 5 5); [|pose proof n2b_z; lra].
    apply ta_mono; [lra|]. intros t Ht. destruct (n2_dom (ta_y 8 5 t)) as (A & B & _); [unfold ta_y; lra|]. now split. }
  pose proof n2_cl as C. apply andb_prop in C. destruct C as [C1 C2].
  set (y := r - 8 / 5). assert (Hy : 0 <= y <= 17 / 5) by (unfold y; lra).
  destruct (n2_dom y Hy) as (Q0 & _ & _). pose proof (pos_ok _ y n2_n_pos (proj1 Hy)) as P0.
  destruct (close_ratio _ _ _ _ _ _ _ _ _ _ _ _ _ y C1 C2 ltac:(lia) P0 Q0 ltac:(lra)) as [_ R].
  unfold ta_z in K, M. change (ta_y 8 5 r) with y in K, M. unfold nz2. fold y.
  set (u := pe n2_n y / pe n2_d y) in *. set (w := pe n2_xn y / pe n2_xd y) in *.
  pose proof cphi_le. pose proof cphi_pos.
  assert (L : Rabs (Phi (1 * w) - Phi (1 * u)) <= 7 / 100000000000).
  { apply (lip_scaled Phi cphi (21 / 10 / IZR 100000000000) 1 u w _ 7 cphi_pos Phi_lip); try lra. }
  rewrite !Rmult_1_l in L.
  apply Rabs_le_between in L. apply Rabs_le_between in K. apply Rabs_le. lra.
Qed.
Lemma n3_head : pos_ck (ta_a n3_n n3_d) = true.
Proof. vm_compute. reflexivity. Qed.
Lemma nz3_acc r : 5 <= r -> Rabs (Phi (nz3 r) - (1 - exp (- (r * r)))) <= 25 / 100000000000.
Proof.
  intros H5. assert (RA : ra_n = 12573677313031 / 7812500000000) by reflexivity.
  pose proof (n2_bound 5 ltac:(lra)) as K. replace (5 * 5) with 25 in K by ring. pose proof exp_25 as X. pose proof (exp_pos (- (r * r))).
  assert (Y : exp (- (r * r)) <= exp (Ropp 25)) by (apply exp_up; nra).
  pose proof (up_mono n3_n n3_d 5 5 r n3_up ltac:(lra) ltac:(lra) ltac:(lra) (or_introl n3_head)) as U. fold (nz3 5) (nz3 r) in U.
  assert (M : Phi (nz3 5) <= Phi (nz3 r)) by (destruct U as [U|U]; [left; now apply Phi_mono|rewrite U; lra]).
  pose proof (Phi_lip (nz3 5) (ta_z n2_n n2_d 8 5 5)) as L.
  assert (Z3 : ta_z n3_n n3_d 5 1 5 = nz3 5) by (unfold nz3, ta_z, ta_y; now replace (5 - IZR 5 / IZR 1) with (5 - 5) by lra).
  pose proof n2b_z. pose proof n3a_z as Z. rewrite Z3 in Z. pose proof cphi_le. pose proof cphi_pos.
  assert (D : Rabs (nz3 5 - ta_z n2_n n2_d 8 5 5) <= 1 / 1000000000000) by (apply Rabs_le; lra).
  assert (L' : Rabs (Phi (nz3 5) - Phi (ta_z n2_n n2_d 8 5 5)) <= 1 / 1000000000000).
  { eapply Rle_trans; [exact L|]. apply Rle_trans with (2 / 5 * (1 / 1000000000000)); [|lra]. apply Rmult_le_compat; try apply Rabs_pos; lra. }
  pose proof (Phi_le1 (nz3 r)). apply Rabs_le_between in K. apply Rabs_le_between in L'. apply Rabs_le. lra.
Qed.

(** ** The functions of the model *)
Lemma ratio_scale k a b c d : k <> 0 -> c = k * a -> d = k * b -> a / b = c / d.
Proof. intros Hk -> ->. unfold Rdiv. rewrite Rinv_mult. replace (k * a * (/ k * / b)) with (k * / k * (a * / b)) by ring. rewrite Rinv_r by assumption. ring. Qed.
Lemma r1_eq q : q * normal_r1 (180625 / 1000000 - q * q) = nz1 q.
Proof.
  unfold nz1. replace (180625 / 1000000 - q * q) with (289 / 1600 - q * q) by lra. f_equal.
  unfold normal_r1. rewrite !lit_R. rops. set (r := 289 / 1600 - q * q). unfold n1_xp, n1_xq. cbn [pe].
  apply (ratio_scale 500000000000000000); [lra|field|field].
Qed.
Lemma r2_eq r : normal_r2 (r - 8 / 5) = nz2 r.
Proof.
  unfold nz2, normal_r2. rewrite !lit_R. rops. set (s := r - 8 / 5). unfold n2_xn, n2_xd. cbn [pe].
  apply (ratio_scale 25000000000000000000000000000); [lra|field|field].
Qed.
Lemma r3_eq r : normal_r3 (r - 5) = nz3 r.
Proof.
  unfold nz3, normal_r3. rewrite !lit_R. rops. set (s := r - 5). unfold n3_n, n3_d. cbn [pe].
  apply (ratio_scale 25000000000000000000000000000000000); [lra|field|field].
Qed.
Lemma sqrt_neg_ln s x : 0 < x < 1 -> sqrt (- ln x) = s -> 0 < s /\ x = exp (- (s * s)).
Proof.
  intros Hx <-. assert (L : ln x < 0) by (rewrite <- ln_1; apply ln_increasing; lra). split; [apply sqrt_lt_R0; lra|].
  rewrite sqrt_sqrt by lra. rewrite Ropp_involutive, exp_ln; lra.
Qed.
(** The standard quantile on the upper half. *)
Lemma zq_upper p : 1 / 2 <= p < 1 -> Rabs (Phi (zq p) - p) <= 3 / 10000000000.
Proof.
  intros Hp. unfold zq. rewrite (Rabs_pos_eq (p - 1 / 2)) by lra.
  destruct (Rle_dec (p - 1 / 2) (17 / 40)) as [H|H].
  - rewrite r1_eq. pose proof (nz1_acc (p - 1 / 2) ltac:(lra)) as K. replace (1 / 2 + (p - 1 / 2)) with p in K by ring. lra.
  - destruct (Rlt_dec (p - 1 / 2) 0); [lra|]. destruct (Rle_dec (p - 1 / 2) 0); [lra|].
    destruct (sqrt_neg_ln _ (1 - p) ltac:(lra) eq_refl) as [S0 S1]. set (s := sqrt (- ln (1 - p))) in *.
    assert (RA : ra_n = 12573677313031 / 7812500000000) by reflexivity.
    assert (SL : ra_n <= s).
    { assert (ra_n * ra_n <= s * s).
      { eapply Rle_trans; [exact ln40_lo|]. apply exp_le_inv. rewrite exp_ln by lra.
        apply Rmult_le_reg_r with (exp (- (s * s))); [apply exp_pos|]. rewrite <- exp_plus. replace (s * s + - (s * s)) with 0 by ring. rewrite exp_0. lra. }
      nra. }
    replace p with (1 - exp (- (s * s))) at 1 by lra.
    destruct (Rle_dec s 5).
    + rewrite r2_eq. eapply Rle_trans; [apply nz2_acc; lra|lra].
    + rewrite r3_eq. eapply Rle_trans; [apply nz3_acc; lra|lra].
Qed.
Lemma zq_acc p : 0 < p < 1 -> Rabs (Phi (zq p) - p) <= 3 / 10000000000.
Proof.
  intros Hp. destruct (Rle_dec (1 / 2) p) as [H|H]; [apply zq_upper; lra|].
  pose proof (zq_upper (1 - p) ltac:(lra)) as K. rewrite zq_sym, Phi_sym in K by lra.
  replace (Phi (zq p) - p) with (- (1 - Phi (zq p) - (1 - p))) by ring. now rewrite Rabs_Ropp.
Qed.
Lemma normal_quantile_acc m v p F : 0 < v -> 0 < p < 1 -> is_cdf F -> (forall y, is_derive F y (gauss m v y)) ->
  Rabs (F (m + sqrt v * zq p) - p) <= 3 / 10000000000.
Proof.
  intros Hv Hp HF DF. rewrite (normal_F_unique m v F Hv HF DF). unfold normal_F. pose proof (sqrt_lt_R0 v Hv).
  replace ((m + sqrt v * zq p - m) / sqrt v) with (zq p) by (field; lra). now apply zq_acc.
Qed.
(** erfinv. *)
Lemma ei1_eq x : x * horner (x * x - 9 / 16) ei_p1_0 ei_p1 / horner (x * x - 9 / 16) ei_q1_0 ei_q1 = ez1 x.
Proof.
  unfold ez1. unfold Rdiv at 1. rewrite Rmult_assoc. f_equal.
  match goal with |- ?a * / ?b = _ => change (a / b = pe e1_xp (9 / 16 - x * x) / pe e1_xq (9 / 16 - x * x)) end.
  replace (x * x - 9 / 16) with (- (9 / 16 - x * x)) by ring. set (y := 9 / 16 - x * x).
  unfold horner, ei_p1_0, ei_p1, ei_q1_0, ei_q1. cbn [rev app fold_left]. rewrite !lit_R. rops. unfold e1_xp, e1_xq. cbn [pe].
  apply (ratio_scale 10000000000000000000); [lra|field|field].
Qed.
Lemma ei2_eq x : x * horner (x * x - 225 / 256) ei_p2_0 ei_p2 / horner (x * x - 225 / 256) ei_q2_0 ei_q2 = ez2 x.
Proof.
  unfold ez2. unfold Rdiv at 1. rewrite Rmult_assoc. f_equal.
  match goal with |- ?a * / ?b = _ => change (a / b = pe e2_xp (225 / 256 - x * x) / pe e2_xq (225 / 256 - x * x)) end.
  replace (x * x - 225 / 256) with (- (225 / 256 - x * x)) by ring. set (y := 225 / 256 - x * x).
  unfold horner, ei_p2_0, ei_p2, ei_q2_0, ei_q2. cbn [rev app fold_left]. rewrite !lit_R. rops. unfold e2_xp, e2_xq. cbn [pe].
  apply (ratio_scale (- 10000000000000000000)); [lra|field|field].
Qed.
Lemma ei3_eq r : 0 < r -> horner (1 / r) ei_p3_0 ei_p3 / (1 / r * horner (1 / r) ei_q3_0 ei_q3) = ez3 r.
Proof.
  intros Hr. unfold ez3.
  assert (R10 : r ^ 10 <> 0) by (apply pow_nonzero; lra).
  apply (ratio_scale (100000000000000000000000 * r ^ 10)).
  - apply Rmult_integral_contrapositive_currified; [lra|assumption].
  - unfold horner, ei_p3_0, ei_p3. cbn [rev app fold_left]. rewrite !lit_R. rops. unfold e3_xn. cbn [pe]. field. lra.
  - unfold horner, ei_q3_0, ei_q3. cbn [rev app fold_left]. rewrite !lit_R. rops. unfold e3_xd. cbn [pe]. field. lra.
Qed.
Lemma serfinv_pos inf x : 0 <= x < 1 -> exists v, serfinv inf x = Ret v /\ Rabs (erf_true v - x) <= 1 / 1000000000 * x.
Proof.
  intros Hx. unfold serfinv. rb. rewrite !lit_R. rops. rewrite (Rabs_pos_eq x) by lra.
  unfold R_leb at 1. destruct (Rle_dec 1 x); [lra|]. unfold R_leb at 1. destruct (Rle_dec x (3 / 4)) as [H1|H1].
  { eexists. split; [reflexivity|]. rewrite ei1_eq. eapply Rle_trans; [apply ez1_acc; lra|lra]. }
  unfold R_leb at 1. destruct (Rle_dec x (15 / 16)) as [H2|H2].
  { eexists. split; [reflexivity|]. rewrite ei2_eq. eapply Rle_trans; [apply ez2_acc; lra|lra]. }
  eexists. split; [reflexivity|].
  destruct (sqrt_neg_ln _ (1 - x) ltac:(lra) eq_refl) as [S0 S1]. set (s := sqrt (- ln (1 - x))) in *.
  assert (IS : 0 < 1 / s) by (apply Rdiv_lt_0_compat; lra).
  assert (CS : copysign (1 / s) x = 1 / s) by (unfold copysign; rb; rops; repeat rcase; lra).
  rewrite CS, ei3_eq by assumption. assert (RA : ra_e = 333021844463079 / 200000000000000) by reflexivity.
  assert (SL : ra_e <= s).
  { assert (ra_e * ra_e <= s * s).
    { eapply Rle_trans; [exact le_lo|]. apply exp_le_inv. rewrite exp_ln by lra.
      apply Rmult_le_reg_r with (exp (- (s * s))); [apply exp_pos|]. rewrite <- exp_plus. replace (s * s + - (s * s)) with 0 by ring. rewrite exp_0. lra. }
    nra. }
  replace x with (1 - exp (- (s * s))) at 1 by lra. eapply Rle_trans; [now apply ez3_tail|lra].
Qed.
Lemma serfinv_acc inf x : Rabs x < 1 -> exists v, serfinv inf x = Ret v /\ Rabs (erf_true v - x) <= 1 / 1000000000 * Rabs x.
Proof.
  intros H. apply Rabs_def2 in H. destruct (Rle_dec 0 x) as [H0|H0].
  - rewrite (Rabs_pos_eq x) by assumption. apply serfinv_pos. lra.
  - destruct (serfinv_pos inf (- x) ltac:(lra)) as (v & E & K). destruct (serfinv_odd inf (- x)) as (w & E1 & E2); [apply Rabs_def1; lra|].
    rewrite Ropp_involutive in E2. rewrite E in E1. injection E1 as <-. exists (- v). split; [exact E2|].
    rewrite erf_true_odd, (Rabs_left x) by lra. replace (- erf_true v - x) with (- (erf_true v - - x)) by ring. now rewrite Rabs_Ropp.
Qed.
