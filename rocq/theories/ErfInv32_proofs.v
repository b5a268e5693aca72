(** The tail of the single-precision inverse error function (error.rs:231-270) against the double-precision one. *)
From Coq Require Import Arith Lia List Bool ZArith QArith Qreals Reals Lra Psatz.
From Coquelicot Require Import Coquelicot.
From Verif Require Import Outcome Scalar RealOps Elem_model Special_model Stat_model.
From Verif Require Import Stat_spec Discrete_proofs OdeOrder_proofs Continuous_proofs Gauss_proofs Normal_proofs Special_proofs StatNew_proofs DistAcc_proofs.
From Verif Require Import Lanczos_proofs LanczosAcc_proofs LnGammaAcc_proofs PolyDom_proofs QuantGen_proofs ErfInv_proofs ErfInvAcc_proofs ErfInvMain_proofs StatExtra_proofs.
Import ListNotations.
Local Open Scope R_scope.

(** Scaled by 10^13. *)
Definition s3_n : list Z := [-1644415679100; 6805442468250; -11280813916170; 6909693488870; 13827196496310; 1550470003116]%Z.
Definition s3_d : list Z := [0; 0; 10000000000000; 13852281419950; 1550248498220]%Z.
Definition s3_num := psub (pmul s3_n e3_xd) (pmul e3_xn s3_d).
Definition s3_den := pmul s3_d e3_xd.
Definition s3_pieces : list (Z * Z * Z * Z * nat) :=
  [(33, 20, 1, 16, 1%nat); (137, 80, 1, 16, 1%nat); (71, 40, 1, 8, 1%nat); (19, 10, 1, 4, 1%nat); (43, 20, 1, 4, 1%nat); (12, 5, 1, 4, 1%nat);
   (53, 20, 1, 4, 1%nat); (29, 10, 1, 2, 2%nat); (17, 5, 1, 4, 1%nat); (73, 20, 1, 4, 1%nat); (39, 10, 1, 2, 2%nat); (22, 5, 1, 2, 2%nat); (49, 10, 1, 10, 1%nat)]%Z.
Lemma s3_ck : forallb (piece_ck 5000000 s3_num s3_den) s3_pieces = true.
Proof. vm_compute. reflexivity. Qed.
Lemma s3_pos : pnn s3_d && existsb (Z.ltb 0) s3_d && pos_ck e3_xd = true.
Proof. vm_compute. reflexivity. Qed.
Definition sz3 (r : R) : R := pe s3_n r / pe s3_d r.
Ltac use_piece H y n d yn yd m := apply (pieces_ok _ _ _ _ n d yn yd m y H); [repeat (first [left; reflexivity|right])|lra].
Lemma s3_dom r : 33 / 20 <= r <= 5 -> IZR 5000000 * Rabs (pe s3_num r) <= pe s3_den r.
Proof.
  intros H.
  destruct (Rle_dec r (137 / 80)); [use_piece s3_ck r 33%Z 20%Z 1%Z 16%Z 1%nat|].
  destruct (Rle_dec r (71 / 40)); [use_piece s3_ck r 137%Z 80%Z 1%Z 16%Z 1%nat|].
  destruct (Rle_dec r (19 / 10)); [use_piece s3_ck r 71%Z 40%Z 1%Z 8%Z 1%nat|].
  destruct (Rle_dec r (43 / 20)); [use_piece s3_ck r 19%Z 10%Z 1%Z 4%Z 1%nat|].
  destruct (Rle_dec r (12 / 5)); [use_piece s3_ck r 43%Z 20%Z 1%Z 4%Z 1%nat|].
  destruct (Rle_dec r (53 / 20)); [use_piece s3_ck r 12%Z 5%Z 1%Z 4%Z 1%nat|].
  destruct (Rle_dec r (29 / 10)); [use_piece s3_ck r 53%Z 20%Z 1%Z 4%Z 1%nat|].
  destruct (Rle_dec r (17 / 5)); [use_piece s3_ck r 29%Z 10%Z 1%Z 2%Z 2%nat|].
  destruct (Rle_dec r (73 / 20)); [use_piece s3_ck r 17%Z 5%Z 1%Z 4%Z 1%nat|].
  destruct (Rle_dec r (39 / 10)); [use_piece s3_ck r 73%Z 20%Z 1%Z 4%Z 1%nat|].
  destruct (Rle_dec r (22 / 5)); [use_piece s3_ck r 39%Z 10%Z 1%Z 2%Z 2%nat|].
  destruct (Rle_dec r (49 / 10)); [use_piece s3_ck r 22%Z 5%Z 1%Z 2%Z 2%nat|].
  use_piece s3_ck r 49%Z 10%Z 1%Z 10%Z 1%nat.
Qed.
Lemma sz3_close r : 33 / 20 <= r <= 5 -> Rabs (sz3 r - ez3 r) <= 2 / 10000000.
Proof.
  intros H. pose proof (s3_dom r H) as D. pose proof s3_pos as S. apply andb_prop in S. destruct S as [S S3]. apply andb_prop in S. destruct S as [S1 S2].
  pose proof (pe_pos_gen _ r S1 S2 ltac:(lra)) as P1. pose proof (pos_ok _ r S3 ltac:(lra)) as P2.
  unfold s3_num, s3_den in D. rewrite pe_sub, !pe_mul in D. unfold sz3, ez3.
  set (a := pe s3_n r) in *. set (b := pe s3_d r) in *. set (c := pe e3_xn r) in *. set (d := pe e3_xd r) in *.
  assert (Q : 0 < b * d) by (apply Rmult_lt_0_compat; assumption).
  replace (a / b - c / d) with ((a * d - c * b) / (b * d)) by (field; split; lra).
  unfold Rdiv at 1. rewrite Rabs_mult, Rabs_inv, (Rabs_pos_eq (b * d)) by lra.
  apply Rmult_le_reg_r with (b * d); [exact Q|]. rewrite Rmult_assoc, Rinv_l, Rmult_1_r by lra. lra.
Qed.
Lemma es3_eq r : 0 < r -> horner (1 / r) e32_p3_0 e32_p3 / (1 / r * horner (1 / r) e32_q3_0 e32_q3) = sz3 r.
Proof.
  intros Hr. unfold sz3.
  assert (R10 : r ^ 5 <> 0) by (apply pow_nonzero; lra).
  apply (ratio_scale (10000000000000 * r ^ 5)).
  - apply Rmult_integral_contrapositive_currified; [lra|assumption].
  - unfold horner, e32_p3_0, e32_p3. cbn [rev app fold_left]. rewrite !lit_R. rops. unfold s3_n. cbn [pe]. field. lra.
  - unfold horner, e32_q3_0, e32_q3. cbn [rev app fold_left]. rewrite !lit_R. rops. unfold s3_d. cbn [pe]. field. lra.
Qed.
Lemma serfinv32_tail_pos inf x : 15 / 16 < x -> x <= 1 - exp (Ropp 25) -> exists v w, serfinv32 inf x = Ret v /\ serfinv inf x = Ret w /\
  Rabs (v - w) <= 2 / 10000000 /\ Rabs (erf_true v - x) <= 23 / 100000000.
Proof.
  intros H1 H2. pose proof (exp_pos (Ropp 25)) as E25. destruct (serfinv_pos inf x ltac:(lra)) as (w & Ew & Kw).
  destruct (sqrt_neg_ln _ (1 - x) ltac:(lra) eq_refl) as [S0 S1]. set (s := sqrt (- ln (1 - x))) in *.
  assert (IS : 0 < 1 / s) by (apply Rdiv_lt_0_compat; lra).
  assert (CS : copysign (1 / s) x = 1 / s) by (unfold copysign; rb; rops; repeat rcase; lra).
  assert (A1 : serfinv inf x = Ret (ez3 s)).
  { unfold serfinv. rb. rewrite !lit_R. rops. rewrite (Rabs_pos_eq x) by lra. unfold R_leb. destruct (Rle_dec 1 x); [lra|].
    destruct (Rle_dec x (3 / 4)); [lra|]. destruct (Rle_dec x (15 / 16)); [lra|]. fold s. now rewrite CS, ei3_eq. }
  assert (A2 : serfinv32 inf x = Ret (sz3 s)).
  { unfold serfinv32. rb. rewrite !lit_R. rops. rewrite (Rabs_pos_eq x) by lra. unfold R_leb. destruct (Rle_dec 1 x); [lra|].
    destruct (Rle_dec x (3 / 4)); [lra|]. destruct (Rle_dec x (15 / 16)); [lra|]. fold s. now rewrite CS, es3_eq. }
  rewrite A1 in Ew. apply Ret_inj in Ew. subst w. exists (sz3 s), (ez3 s). split; [exact A2|]. split; [exact A1|].
  assert (RA : ra_e = 333021844463079 / 200000000000000) by reflexivity.
  assert (SL : ra_e <= s).
  { assert (ra_e * ra_e <= s * s).
    { eapply Rle_trans; [exact le_lo|]. apply exp_le_inv. rewrite exp_ln by lra.
      apply Rmult_le_reg_r with (exp (- (s * s))); [apply exp_pos|]. rewrite <- exp_plus. replace (s * s + - (s * s)) with 0 by ring. rewrite exp_0. lra. }
    nra. }
  assert (SH : s <= 5).
  { assert (- (25) <= - (s * s)) by (apply exp_le_inv; lra). nra. }
  pose proof (sz3_close s ltac:(lra)) as C. split; [exact C|].
  pose proof (erf_lip (sz3 s) (ez3 s)) as L. pose proof cerf_le. pose proof cerf_pos. pose proof (Rabs_pos (sz3 s - ez3 s)).
  assert (cerf * Rabs (sz3 s - ez3 s) <= 113 / 100 * (2 / 10000000)) by (apply Rmult_le_compat; lra).
  replace (erf_true (sz3 s) - x) with ((erf_true (sz3 s) - erf_true (ez3 s)) + (erf_true (ez3 s) - x)) by ring.
  eapply Rle_trans; [apply Rabs_triang|]. lra.
Qed.
Lemma serfinv32_tail inf x : 15 / 16 < Rabs x -> Rabs x <= 1 - exp (Ropp 25) -> exists v w, serfinv32 inf x = Ret v /\ serfinv inf x = Ret w /\
  Rabs (v - w) <= 2 / 10000000 /\ Rabs (erf_true v - x) <= 23 / 100000000.
Proof.
  intros H1 H2. destruct (Rle_dec 0 x) as [H0|H0]; [rewrite Rabs_pos_eq in H1, H2 by assumption; apply serfinv32_tail_pos; assumption|].
  rewrite Rabs_left in H1, H2 by lra. destruct (serfinv32_tail_pos inf (- x) H1 H2) as (v & w & Ev & Ew & K1 & K2). pose proof (exp_pos (Ropp 25)).
  destruct (serfinv_odd inf (- x)) as (w' & E1 & E2); [apply Rabs_def1; lra|]. rewrite Ropp_involutive in E2. rewrite Ew in E1. apply Ret_inj in E1. subst w'.
  destruct (serfinv32_odd inf (- x)) as (v' & E3 & E4); [apply Rabs_def1; lra|]. rewrite Ropp_involutive in E4. rewrite Ev in E3. apply Ret_inj in E3. subst v'.
  exists (- v), (- w). split; [exact E4|]. split; [exact E2|]. split.
  - replace (- v - - w) with (- (v - w)) by ring. now rewrite Rabs_Ropp.
  - rewrite erf_true_odd. replace (- erf_true v - x) with (- (erf_true v - - x)) by ring. now rewrite Rabs_Ropp.
Qed.
