(** The continued fraction of the upper incomplete gamma function: convergence to the true value and error of
    the stopping rule. *)
From Coq Require Import Arith Lia List Bool ZArith Reals Lra Psatz.
From Coquelicot Require Import Coquelicot.
From Verif Require Import Outcome Scalar RealOps Elem_model Int_model Ode_model Special_model.
From Verif Require Import Stat_spec Special_spec Discrete_proofs OdeOrder_proofs Continuous_proofs Normal_proofs Special_proofs GammaTerm_proofs GammaFun_proofs StatExtra_proofs SpecialNew_proofs.
Local Open Scope R_scope.

(** ** The recurrence *)
Definition cz (a x : R) (n : nat) : R := x + 2 * (INR n + 1) + 2 - a.
Definition cy (a : R) (n : nat) : R := (INR n + 1) * (INR n + 2 - a).
Fixpoint cf2 (a x u0 u1 : R) (n : nat) : R * R :=
  match n with
  | O => (u0, u1)
  | S k => let '(u, v) := cf2 a x u0 u1 k in (v, v * cz a x k - u * cy a k)
  end.
Definition cq (a x : R) (n : nat) : R := fst (cf2 a x 1 (x + 2 - a) n).
Definition cp (a x : R) (n : nat) : R := fst (cf2 a x 1 (x + 1) n).
Lemma cf2_rec a x u0 u1 n : fst (cf2 a x u0 u1 (S (S n))) = fst (cf2 a x u0 u1 (S n)) * cz a x n - fst (cf2 a x u0 u1 n) * cy a n.
Proof. cbn [cf2]. destruct (cf2 a x u0 u1 n) as [u v]. reflexivity. Qed.
Lemma cq_0 a x : cq a x 0 = 1. Proof. reflexivity. Qed.
Lemma cq_1 a x : cq a x 1 = x + 2 - a. Proof. reflexivity. Qed.
Lemma cq_S a x n : cq a x (S (S n)) = cq a x (S n) * cz a x n - cq a x n * cy a n.
Proof. apply cf2_rec. Qed.
Lemma cp_0 a x : cp a x 0 = 1. Proof. reflexivity. Qed.
Lemma cp_1 a x : cp a x 1 = x + 1. Proof. reflexivity. Qed.
Lemma cp_S a x n : cp a x (S (S n)) = cp a x (S n) * cz a x n - cp a x n * cy a n.
Proof. apply cf2_rec. Qed.
(** The Wronskian. *)
Fixpoint ck (a : R) (n : nat) : R := match n with O => a - 1 | S k => cy a k * ck a k end.
Lemma cw a x n : cp a x (S n) * cq a x n - cp a x n * cq a x (S n) = ck a n.
Proof.
  induction n as [|n IH]; [rewrite cp_1, cq_0, cp_0, cq_1; cbn [ck]; ring|].
  rewrite cp_S, cq_S. cbn [ck]. rewrite <- IH. ring.
Qed.

Lemma exp_INR n y : exp (INR n * y) = exp y ^ n.
Proof. induction n as [|n IH]; [change (INR 0) with 0; rewrite Rmult_0_l; apply exp_0|]. rewrite S_INR, Rmult_plus_distr_r, exp_plus, IH, Rmult_1_l. cbn [pow]. ring. Qed.

(** ** Positivity and the growth of the denominators *)
Section Fixed.
Set Default Proof Using "All".
Variables a x : R.
Hypotheses (Ha : 0 < a) (Hx : 1 <= x) (Hax : a <= x).
Lemma cq_grow n : 0 < cq a x n /\ (x + INR n + 2 - a) * cq a x n <= cq a x (S n).
Proof.
  induction n as [|n [P G]].
  - rewrite cq_0, cq_1. change (INR 0) with 0. split; lra.
  - pose proof (pos_INR n) as N0. rewrite S_INR. assert (P' : 0 < cq a x (S n)).
    { assert (0 < (x + INR n + 2 - a) * cq a x n) by (apply Rmult_lt_0_compat; lra). lra. }
    split; [exact P'|]. rewrite cq_S. unfold cz, cy.
    assert ((INR n + 1) * (INR n + 2 - a) * cq a x n <= (INR n + 1) * cq a x (S n)).
    { rewrite Rmult_assoc. apply Rmult_le_compat_l; [lra|].
      assert (0 <= x * cq a x n) by (apply Rmult_le_pos; lra). lra. }
    lra.
Qed.
Lemma cq_pos n : 0 < cq a x n. Proof. apply cq_grow. Qed.
Lemma cq_ge n : (x + INR n + 2 - a) * cq a x n <= cq a x (S n). Proof. apply cq_grow. Qed.
(** (x+1) p - x q stays positive: every convergent exceeds 1/(x+1). *)
Lemma cr_grow n : 0 < (x + 1) * cp a x n - x * cq a x n /\
  (INR n + 1) * ((x + 1) * cp a x n - x * cq a x n) <= (x + 1) * cp a x (S n) - x * cq a x (S n).
Proof.
  induction n as [|n [P G]].
  - rewrite cq_0, cq_1, cp_0, cp_1. change (INR 0) with 0. assert (0 < a * x) by (apply Rmult_lt_0_compat; lra). split; lra.
  - pose proof (pos_INR n) as N0. rewrite S_INR.
    set (r0 := (x + 1) * cp a x n - x * cq a x n) in *. set (r1 := (x + 1) * cp a x (S n) - x * cq a x (S n)) in *.
    assert (P' : 0 < r1) by (assert (0 < (INR n + 1) * r0) by (apply Rmult_lt_0_compat; lra); lra). split; [exact P'|].
    replace ((x + 1) * cp a x (S (S n)) - x * cq a x (S (S n))) with (r1 * cz a x n - r0 * cy a n).
    2:{ unfold r1, r0. rewrite cp_S, cq_S. ring. }
    unfold cz, cy. destruct (Rle_dec a (INR n + 2)) as [L|L].
    + assert (r0 * ((INR n + 1) * (INR n + 2 - a)) <= (INR n + 2 - a) * r1).
      { replace (r0 * ((INR n + 1) * (INR n + 2 - a))) with ((INR n + 2 - a) * ((INR n + 1) * r0)) by ring. apply Rmult_le_compat_l; lra. }
      assert (0 <= x * r1) by (apply Rmult_le_pos; lra). lra.
    + assert (0 <= r0 * ((INR n + 1) * (a - INR n - 2))).
      { apply Rmult_le_pos; [lra|]. apply Rmult_le_pos; lra. }
      assert (0 <= (x - a) * r1) by (apply Rmult_le_pos; lra). assert (0 <= INR n * r1) by (apply Rmult_le_pos; lra). lra.
Qed.
Definition cA (n : nat) : R := cp a x n / (x * cq a x n).
Lemma cA_low n : / (x + 1) <= cA n.
Proof.
  pose proof (cq_pos n) as Q. destruct (cr_grow n) as [P _]. unfold cA.
  apply Rmult_le_reg_r with ((x + 1) * (x * cq a x n)); [apply Rmult_lt_0_compat; [lra|]; apply Rmult_lt_0_compat; lra|].
  field_simplify; lra.
Qed.
Lemma cA_pos n : 0 < cA n.
Proof. pose proof (cA_low n). pose proof (Rinv_0_lt_compat (x + 1) ltac:(lra)). lra. Qed.
(** Consecutive differences. *)
Definition cD (n : nat) : R := ck a n / (x * (cq a x n * cq a x (S n))).
Lemma cD_eq n : cA (S n) - cA n = cD n.
Proof.
  unfold cA, cD. rewrite <- (cw a x n). pose proof (cq_pos n). pose proof (cq_pos (S n)). field. repeat split; lra.
Qed.
(** Ratio of consecutive denominators. *)
Definition cd (n : nat) : R := cq a x (S n) / cq a x n.
Lemma cd_ge n : x + INR n + 2 - a <= cd n.
Proof.
  pose proof (cq_pos n). pose proof (cq_ge n). unfold cd. apply Rmult_le_reg_r with (cq a x n); [assumption|].
  unfold Rdiv. rewrite Rmult_assoc, Rinv_l by lra. lra.
Qed.
Lemma cd_pos n : 0 < cd n.
Proof. pose proof (cd_ge n). pose proof (pos_INR n). lra. Qed.
Lemma cd_S n : cd (S n) = cz a x n - cy a n / cd n.
Proof. unfold cd. rewrite cq_S. pose proof (cq_pos n). pose proof (cq_pos (S n)). field. split; lra. Qed.
Lemma cd_prod n : cd n * cd (S n) = cd n * cz a x n - cy a n.
Proof. rewrite cd_S. pose proof (cd_pos n). field. lra. Qed.
Definition crho (n : nat) : R := cy a n / (cd n * cd (S n)).
Lemma cD_S n : cD (S n) = crho n * cD n.
Proof.
  unfold cD, crho, cd. cbn [ck]. pose proof (cq_pos n). pose proof (cq_pos (S n)). pose proof (cq_pos (S (S n))). field. repeat split; lra.
Qed.
(** The square-root growth of the excess. *)
Lemma cd_sqrt n : INR n + 2 - a + sqrt (x * (INR n + 1)) / 2 <= cd n.
Proof.
  induction n as [|n IH].
  - unfold cd. rewrite cq_0, cq_1. change (INR 0) with 0.
    assert (sqrt (x * (0 + 1)) <= x). { rewrite Rplus_0_l, Rmult_1_r. rewrite <- (sqrt_Rsqr x) at 2 by lra. apply sqrt_le_1; unfold Rsqr; nra. }
    lra.
  - pose proof (pos_INR n) as N0. rewrite S_INR. set (m := INR n + 1) in *.
    replace (INR n + 1 + 2 - a) with (m + 2 - a) by (unfold m; ring). replace (INR n + 2 - a) with (m + 1 - a) in IH by (unfold m; ring).
    set (r := sqrt x). set (w := sqrt m). set (W := sqrt (m + 1)).
    assert (R2 : r * r = x) by (apply sqrt_sqrt; lra). assert (w2 : w * w = m) by (apply sqrt_sqrt; unfold m; lra).
    assert (W2 : W * W = m + 1) by (apply sqrt_sqrt; unfold m; lra).
    assert (R1 : 1 <= r) by (unfold r; rewrite <- sqrt_1; apply sqrt_le_1; lra).
    assert (w1 : 1 <= w) by (unfold w; rewrite <- sqrt_1; apply sqrt_le_1; unfold m; lra).
    assert (W0 : 0 <= W) by apply sqrt_pos.
    rewrite !sqrt_mult in * by (unfold m; lra). fold r w W in IH |- *.
    assert (SW : W <= w + / (2 * w)).
    { assert (Q : 0 < / (2 * w)) by (apply Rinv_0_lt_compat; lra). apply Rsqr_incr_0; [|assumption|lra]. unfold Rsqr.
      replace ((w + / (2 * w)) * (w + / (2 * w))) with (w * w + 1 + / (2 * w) * / (2 * w)) by (field; lra).
      assert (0 < / (2 * w) * / (2 * w)) by (apply Rmult_lt_0_compat; lra). lra. }
    rewrite cd_S. unfold cz, cy. fold m. replace (INR n + 2 - a) with (m + 1 - a) by (unfold m; ring).
    pose proof (cd_pos n) as DP. set (A := m + 1 - a) in *. set (D := cd n) in *.
    assert (s0 : 0 <= r * w) by (apply Rmult_le_pos; lra).
    assert (M1 : 1 <= m) by (unfold m; lra).
    assert (Core : r * W / 2 <= x + m * (1 - A / D)).
    { assert (SWr : r * W / 2 <= r * w / 2 + r * / (4 * w)).
      { replace (r * w / 2 + r * / (4 * w)) with (r * (w + / (2 * w)) / 2) by (field; lra).
        assert (r * W <= r * (w + / (2 * w))) by (apply Rmult_le_compat_l; lra). lra. }
      assert (Qw : r * / (4 * w) <= r / 4).
      { unfold Rdiv. apply Rmult_le_compat_l; [lra|]. apply Rinv_le_contravar; lra. }
      destruct (Rle_dec A 0) as [LA|LA].
      - assert (0 <= - A / D) by (apply Rmult_le_pos; [lra|left; now apply Rinv_0_lt_compat]).
        replace (1 - A / D) with (1 + - A / D) by (unfold Rdiv; ring).
        assert (0 <= m * (- A / D)) by (apply Rmult_le_pos; lra).
        assert (r * w / 2 <= x / 2 + m / 2) by (pose proof (Rle_0_sqr (r - w)) as SQ; unfold Rsqr in SQ; rewrite <- R2, <- w2; lra).
        assert (r / 4 <= x / 4) by (rewrite <- R2; assert (r * 1 <= r * r) by (apply Rmult_le_compat_l; lra); lra). lra.
      - set (s := r * w / 2) in *. assert (Ap : 0 < A) by lra. assert (AD : A / D <= A / (A + s)).
        { unfold Rdiv. apply Rmult_le_compat_l; [lra|]. apply Rinv_le_contravar; unfold s in *; lra. }
        assert (AA : A / (A + s) <= (m + 1) / (m + 1 + s)).
        { apply Rmult_le_reg_r with ((A + s) * (m + 1 + s)); [apply Rmult_lt_0_compat; unfold s; lra|].
          replace (A / (A + s) * ((A + s) * (m + 1 + s))) with (A * (m + 1 + s)) by (field; unfold s; lra).
          replace ((m + 1) / (m + 1 + s) * ((A + s) * (m + 1 + s))) with ((m + 1) * (A + s)) by (field; unfold s; lra).
          assert (A * s <= (m + 1) * s) by (apply Rmult_le_compat_r; [unfold s; lra|unfold A; lra]). lra. }
        assert (MM : m * (A / D) <= m * ((m + 1) / (m + 1 + s))) by (apply Rmult_le_compat_l; lra).
        assert (Last : s + r * / (4 * w) <= x + m * (1 - (m + 1) / (m + 1 + s))).
        { apply Rmult_le_reg_r with ((m + 1 + s) * w); [apply Rmult_lt_0_compat; unfold s; lra|].
          replace ((s + r * / (4 * w)) * ((m + 1 + s) * w)) with (s * (m + 1 + s) * w + r / 4 * (m + 1 + s)) by (field; lra).
          replace ((x + m * (1 - (m + 1) / (m + 1 + s))) * ((m + 1 + s) * w)) with (x * (m + 1 + s) * w + m * s * w) by (field; unfold s; lra).
          unfold s. rewrite <- R2, <- w2. clear - R1 w1.
          assert (H1 : 0 <= r * r * w * (w * w) - r * (w * w)). { replace (r * r * w * (w * w) - r * (w * w)) with (r * (w * w) * (r * w - 1)) by ring.
            assert (1 <= r * w) by (rewrite <- (Rmult_1_l 1); apply Rmult_le_compat; lra). apply Rmult_le_pos; [apply Rmult_le_pos; [lra|apply Rmult_le_pos; lra]|lra]. }
          assert (H2 : 0 <= r * r * w - r). { replace (r * r * w - r) with (r * (r * w - 1)) by ring.
            assert (1 <= r * w) by (rewrite <- (Rmult_1_l 1); apply Rmult_le_compat; lra). apply Rmult_le_pos; lra. }
          assert (H3 : 0 <= r * r * r * w * w). { repeat apply Rmult_le_pos; lra. }
          assert (H4 : 0 <= r * r * w) by (repeat apply Rmult_le_pos; lra).
          assert (H5 : 0 < r * w * w). { repeat apply Rmult_lt_0_compat; lra. }
          nra. }
        lra. }
    replace (x + 2 * m + 2 - a - m * A / D) with (x + m * (1 - A / D) + (m + 2 - a)) by (unfold A; field; lra). lra.
Qed.
Definition csm (n : nat) : R := sqrt (x * (INR n + 1)).
Lemma csm_pos n : 1 <= csm n.
Proof.
  unfold csm. pose proof (pos_INR n). assert (1 * 1 <= x * (INR n + 1)) by (apply Rmult_le_compat; lra).
  assert (H1 : sqrt 1 <= sqrt (x * (INR n + 1))) by (apply sqrt_le_1; lra). rewrite sqrt_1 in H1. exact H1.
Qed.
(** In the monotone phase ... *)
Lemma crho_pos n : a < INR n + 2 -> 0 < crho n <= (INR n + 2) / (INR n + 2 + csm n).
Proof.
  intros L. pose proof (pos_INR n) as N0. pose proof (cd_pos n) as D0. pose proof (cd_pos (S n)) as D1.
  pose proof (csm_pos n) as S1. pose proof (cd_sqrt n) as DS. fold (csm n) in DS.
  set (A := INR n + 2 - a) in *. assert (Y : 0 < cy a n) by (unfold cy; apply Rmult_lt_0_compat; unfold A in *; lra).
  split; [apply Rdiv_lt_0_compat; [assumption|now apply Rmult_lt_0_compat]|].
  unfold crho. set (m := INR n + 1) in *.
  assert (DD : m * (A + csm n) <= cd n * cd (S n)).
  { rewrite cd_prod. unfold cz, cy. fold m A.
    assert ((A + csm n / 2) * (2 * m + 2) <= cd n * (x + 2 * m + 2 - a)) by (apply Rmult_le_compat; unfold A, m in *; lra).
    assert (0 <= 2 * A + csm n) by (unfold A in *; lra). lra. }
  assert (P : 0 < m * (A + csm n)) by (apply Rmult_lt_0_compat; unfold A, m in *; lra).
  apply Rle_trans with (cy a n / (m * (A + csm n))).
  { unfold Rdiv. apply Rmult_le_compat_l; [lra|]. now apply Rinv_le_contravar. }
  unfold cy. fold m A. apply Rmult_le_reg_r with ((A + csm n) * (INR n + 2 + csm n)); [apply Rmult_lt_0_compat; unfold A in *; lra|].
  replace (m * A / (m * (A + csm n)) * ((A + csm n) * (INR n + 2 + csm n))) with (A * (INR n + 2 + csm n)) by (field; unfold A, m in *; lra).
  replace ((INR n + 2) / (INR n + 2 + csm n) * ((A + csm n) * (INR n + 2 + csm n))) with ((INR n + 2) * (A + csm n)) by (field; lra).
  assert (0 <= a * csm n) by (apply Rmult_le_pos; lra). unfold A. lra.
Qed.
(** ... and in the alternating one. *)
Lemma crho_neg n : INR n + 2 <= a -> -1 <= crho n <= 0.
Proof.
  intros L. pose proof (pos_INR n) as N0. pose proof (cd_pos n) as D0. pose proof (cd_pos (S n)) as D1.
  assert (Y : cy a n <= 0). { unfold cy. assert (0 <= (INR n + 1) * (a - INR n - 2)) by (apply Rmult_le_pos; lra). lra. }
  assert (P : 0 < cd n * cd (S n)) by now apply Rmult_lt_0_compat.
  assert (Q : - cy a n <= cd n * cd (S n)).
  { rewrite cd_prod. assert (0 <= cd n * cz a x n) by (apply Rmult_le_pos; unfold cz; lra). lra. }
  unfold crho. split; apply Rmult_le_reg_r with (cd n * cd (S n)); try assumption; unfold Rdiv; rewrite Rmult_assoc, Rinv_l by lra; lra.
Qed.
Lemma crho_abs n : Rabs (crho n) <= 1.
Proof.
  destruct (Rlt_dec a (INR n + 2)) as [L|L].
  - destruct (crho_pos n L) as [P Q]. rewrite Rabs_pos_eq by lra. apply Rle_trans with (1 := Q). pose proof (pos_INR n). pose proof (csm_pos n).
    apply Rmult_le_reg_r with (INR n + 2 + csm n); [lra|]. unfold Rdiv. rewrite Rmult_assoc, Rinv_l by lra. lra.
  - apply Rabs_le. pose proof (crho_neg n ltac:(lra)). lra.
Qed.
Lemma cD_decr n k : Rabs (cD (n + k)) <= Rabs (cD n).
Proof.
  induction k as [|k IH]; [rewrite Nat.add_0_r; lra|]. rewrite Nat.add_succ_r, cD_S, Rabs_mult.
  pose proof (crho_abs (n + k)). pose proof (Rabs_pos (cD (n + k))). assert (Rabs (crho (n + k)) * Rabs (cD (n + k)) <= 1 * Rabs (cD (n + k))) by (apply Rmult_le_compat_r; assumption). lra.
Qed.
(** The tail constant 2 sqrt(m/x) + 2. *)
Definition cC (n : nat) : R := 2 * (csm n / x) + 2.
Lemma csm_sq n : csm n * csm n = x * (INR n + 1).
Proof. unfold csm. apply sqrt_sqrt. pose proof (pos_INR n). apply Rmult_le_pos; lra. Qed.
Lemma csm_S n : csm (S n) <= csm n + x / (2 * csm n).
Proof.
  pose proof (csm_pos n) as P. pose proof (pos_INR n). assert (Q : 0 < x / (2 * csm n)) by (apply Rdiv_lt_0_compat; lra).
  apply Rsqr_incr_0; [|apply sqrt_pos|lra]. unfold Rsqr.
  replace ((csm n + x / (2 * csm n)) * (csm n + x / (2 * csm n))) with (csm n * csm n + x + x / (2 * csm n) * (x / (2 * csm n))) by (field; lra).
  assert (0 < x / (2 * csm n) * (x / (2 * csm n))) by (apply Rmult_lt_0_compat; lra).
  rewrite !csm_sq, S_INR. lra.
Qed.
Lemma cC_step n : (INR n + 2) / (INR n + 2 + csm n) * (1 + cC (S n)) <= cC n.
Proof.
  pose proof (pos_INR n) as N0. pose proof (csm_pos n) as P. pose proof (csm_S n) as S. pose proof (csm_sq n) as SQ.
  set (s := csm n) in *. set (m := INR n + 1) in *. replace (INR n + 2) with (m + 1) by (unfold m; ring).
  assert (Up : cC (Datatypes.S n) <= 2 * (s / x) + / s + 2).
  { unfold cC. assert (csm (Datatypes.S n) / x <= (s + x / (2 * s)) / x) by (unfold Rdiv at 1 2; apply Rmult_le_compat_r; [left; apply Rinv_0_lt_compat; lra|exact S]).
    replace ((s + x / (2 * s)) / x) with (s / x + / s / 2) in H by (field; lra). lra. }
  apply Rmult_le_reg_r with (m + 1 + s); [unfold m; lra|].
  replace ((m + 1) / (m + 1 + s) * (1 + cC (Datatypes.S n)) * (m + 1 + s)) with ((m + 1) * (1 + cC (Datatypes.S n))) by (field; unfold m; lra).
  apply Rle_trans with ((m + 1) * (1 + (2 * (s / x) + / s + 2))); [apply Rmult_le_compat_l; [unfold m; lra|lra]|].
  unfold cC. fold s.
  replace ((2 * (s / x) + 2) * (m + 1 + s)) with ((m + 1) * (2 * (s / x) + 2) + 2 * (s * s / x) + 2 * s) by (field; lra).
  rewrite SQ. replace (2 * (x * m / x)) with (2 * m) by (field; lra).
  assert (SI : (m + 1) * / s <= m + s).
  { apply Rmult_le_reg_r with s; [lra|]. rewrite Rmult_assoc, Rinv_l by lra. rewrite Rmult_1_r.
    assert (m * 1 <= m * s) by (apply Rmult_le_compat_l; unfold m; lra). assert (1 * 1 <= s * s) by (apply Rmult_le_compat; lra). lra. }
  lra.
Qed.
Lemma cA_tail_mono N : forall n, a < INR n + 2 -> Rabs (cA (S n + N) - cA (S n)) <= cC n * Rabs (cD n).
Proof.
  induction N as [|N IH]; intros n L.
  - rewrite Nat.add_0_r, Rminus_diag_eq, Rabs_R0 by reflexivity. apply Rmult_le_pos; [|apply Rabs_pos]. unfold cC.
    pose proof (csm_pos n). assert (0 <= csm n / x) by (apply Rmult_le_pos; [lra|left; apply Rinv_0_lt_compat; lra]). lra.
  - replace (S n + S N)%nat with (S (S n) + N)%nat by lia.
    replace (cA (S (S n) + N) - cA (S n)) with (cD (S n) + (cA (S (S n) + N) - cA (S (S n)))) by (rewrite <- cD_eq; ring).
    assert (L' : a < INR (S n) + 2) by (rewrite S_INR; lra). specialize (IH (S n) L').
    apply Rle_trans with (1 := Rabs_triang _ _). apply Rle_trans with ((1 + cC (S n)) * Rabs (cD (S n))); [lra|].
    rewrite cD_S, Rabs_mult. destruct (crho_pos n L) as [P Q]. rewrite (Rabs_pos_eq (crho n)) by lra.
    assert (C1 : 0 <= 1 + cC (S n)). { unfold cC. pose proof (csm_pos (S n)). assert (0 <= csm (S n) / x) by (apply Rmult_le_pos; [lra|left; apply Rinv_0_lt_compat; lra]). lra. }
    replace ((1 + cC (S n)) * (crho n * Rabs (cD n))) with ((crho n * (1 + cC (S n))) * Rabs (cD n)) by ring.
    apply Rmult_le_compat_r; [apply Rabs_pos|]. apply Rle_trans with (2 := cC_step n). apply Rmult_le_compat_r; assumption.
Qed.
Lemma cC_small n : INR n + 1 <= x -> cC n <= 4.
Proof.
  intros L. unfold cC. pose proof (csm_sq n) as SQ. pose proof (csm_pos n) as P. pose proof (pos_INR n).
  assert (csm n <= x). { apply Rsqr_incr_0; [|lra|lra]. unfold Rsqr. rewrite SQ. apply Rmult_le_compat_l; lra. }
  assert (csm n / x <= 1). { apply Rmult_le_reg_r with x; [lra|]. unfold Rdiv. rewrite Rmult_assoc, Rinv_l by lra. lra. } lra.
Qed.
Lemma cA_tail_alt N : forall n, INR n + 2 <= a -> exists t, cA (S n + N) - cA (S n) = t * cD n /\ -5 <= t <= 4.
Proof.
  induction N as [|N IH]; intros n L.
  - exists 0. rewrite Nat.add_0_r. split; [ring|lra].
  - replace (S n + S N)%nat with (S (S n) + N)%nat by lia.
    assert (X : exists t, cA (S (S n) + N) - cA (S (S n)) = t * cD (S n) /\ -5 <= t <= 4).
    { destruct (Rle_dec (INR (S n) + 2) a) as [L'|L']; [now apply IH|].
      pose proof (cA_tail_mono N (S n) ltac:(lra)) as B. assert (C4 : cC (S n) <= 4) by (apply cC_small; rewrite S_INR; lra).
      set (d := cA (S (S n) + N) - cA (S (S n))) in *.
      destruct (Req_dec (cD (S n)) 0) as [Z|Z].
      - exists 0. rewrite Z, Rabs_R0, Rmult_0_r in B. split; [|lra]. rewrite Rmult_0_l. destruct (Req_dec d 0) as [|Nd]; [assumption|]. apply Rabs_pos_lt in Nd. lra.
      - exists (d / cD (S n)). split; [field; assumption|]. pose proof (Rabs_pos_lt _ Z) as ZP.
        assert (Rabs (d / cD (S n)) <= 4). { unfold Rdiv. rewrite Rabs_mult, Rabs_inv. apply Rmult_le_reg_r with (Rabs (cD (S n))); [assumption|].
          rewrite Rmult_assoc, Rinv_l by lra. pose proof (Rabs_pos (cD (S n))). assert (cC (S n) * Rabs (cD (S n)) <= 4 * Rabs (cD (S n))) by (apply Rmult_le_compat_r; lra). lra. }
        apply Rabs_le_between in H. lra. }
    destruct X as (t & E & Ht). exists ((1 + t) * crho n). split.
    + replace (cA (S (S n) + N) - cA (S n)) with (cD (S n) + (cA (S (S n) + N) - cA (S (S n)))) by (rewrite <- cD_eq; ring). rewrite E, cD_S. ring.
    + destruct (crho_neg n L) as [R0 R1]. set (u := 1 + t) in *. set (r := crho n) in *. assert (-4 <= u <= 5) by (unfold u; lra). clearbody u r. clear - R0 R1 H. nra.
Qed.
Lemma cA_tail n N : Rabs (cA (S n + N) - cA (S n)) <= (cC n + 3) * Rabs (cD n).
Proof.
  pose proof (Rabs_pos (cD n)) as P. assert (C2 : 2 <= cC n).
  { unfold cC. pose proof (csm_pos n). assert (0 <= csm n / x) by (apply Rmult_le_pos; [lra|left; apply Rinv_0_lt_compat; lra]). lra. }
  destruct (Rlt_dec a (INR n + 2)) as [L|L].
  - pose proof (cA_tail_mono N n L). assert (0 <= 3 * Rabs (cD n)) by (apply Rmult_le_pos; lra). lra.
  - destruct (cA_tail_alt N n ltac:(lra)) as (t & -> & Ht). rewrite Rabs_mult. apply Rmult_le_compat_r; [assumption|]. apply Rabs_le. lra.
Qed.

(** ** Decay of the differences and the number of iterations *)
Lemma cD_0 : Rabs (cD 0) * (x + 1) <= x + 1.
Proof.
  unfold cD. cbn [ck]. rewrite cq_0, cq_1. rewrite Rmult_1_l. set (d := x * (x + 2 - a)). assert (P : 0 < d) by (apply Rmult_lt_0_compat; lra).
  unfold Rdiv. rewrite Rabs_mult, (Rabs_pos_eq (/ d)) by (left; now apply Rinv_0_lt_compat).
  rewrite <- (Rmult_1_l (x + 1)) at 2. apply Rmult_le_compat_r; [lra|]. apply Rmult_le_reg_r with d; [assumption|].
  rewrite Rmult_assoc, Rinv_l by lra. assert (Rabs (a - 1) <= x) by (apply Rabs_le; lra). assert (x * 1 <= d) by (apply Rmult_le_compat_l; lra). lra.
Qed.
Lemma crho_exp n : a < INR n + 2 -> x <= INR n + 1 -> crho n <= exp (- (2 / 3 * (csm (S n) - csm n))).
Proof.
  intros L Lx. destruct (crho_pos n L) as [_ Q]. apply Rle_trans with (1 := Q). pose proof (pos_INR n) as N0.
  pose proof (csm_pos n) as P. pose proof (csm_S n) as S. pose proof (csm_sq n) as SQ. set (s := csm n) in *. set (m := INR n + 1) in *.
  replace (INR n + 2) with (m + 1) by (unfold m; ring).
  assert (E : (m + 1) / (m + 1 + s) <= exp (- (s / (m + 1 + s)))).
  { pose proof (exp_ineq1_le (- (s / (m + 1 + s)))) as H. replace ((m + 1) / (m + 1 + s)) with (1 + - (s / (m + 1 + s))) by (field; unfold m; lra). lra. }
  apply Rle_trans with (1 := E).
  assert (G : 2 / 3 * (csm (Datatypes.S n) - s) <= s / (m + 1 + s)).
  { apply Rle_trans with (2 / 3 * (x / (2 * s))); [lra|].
    assert (Sm : s <= m). { apply Rsqr_incr_0; [|lra|unfold m; lra]. unfold Rsqr. rewrite SQ. apply Rmult_le_compat_r; [unfold m; lra|exact Lx]. }
    apply Rmult_le_reg_r with (3 * s * (m + 1 + s)); [apply Rmult_lt_0_compat; [lra|unfold m; lra]|].
    replace (2 / 3 * (x / (2 * s)) * (3 * s * (m + 1 + s))) with (x * (m + 1 + s)) by (field; lra).
    replace (s / (m + 1 + s) * (3 * s * (m + 1 + s))) with (3 * (s * s)) by (field; unfold m; lra). rewrite SQ.
    replace (3 * (x * m)) with (x * (3 * m)) by ring. apply Rmult_le_compat_l; unfold m in *; lra. }
  destruct (Rle_lt_or_eq_dec (- (s / (m + 1 + s))) (- (2 / 3 * (csm (Datatypes.S n) - s))) ltac:(lra)) as [H|H]; [left; now apply exp_increasing|rewrite H; lra].
Qed.
Lemma exp_ge_1 y : 0 <= y -> 1 <= exp y.
Proof. intros H. pose proof (exp_ineq1_le y). lra. Qed.
Lemma cD_exp n : Rabs (cD n) <= Rabs (cD 0) * exp (- (2 / 3 * (csm n - (x + 1)))).
Proof.
  induction n as [|n IH].
  - rewrite <- (Rmult_1_r (Rabs (cD 0))) at 1. apply Rmult_le_compat_l; [apply Rabs_pos|]. 
    assert (csm 0 <= x + 1).
    { unfold csm. change (INR 0) with 0. rewrite Rplus_0_l, Rmult_1_r. apply Rsqr_incr_0; [|apply sqrt_pos|lra]. unfold Rsqr. rewrite sqrt_sqrt by lra. nra. }
    apply exp_ge_1. lra.
  - pose proof (pos_INR n) as N0. destruct (Rle_dec x (INR n + 1)) as [L|L].
    + rewrite cD_S, Rabs_mult. pose proof (crho_exp n ltac:(lra) L) as E. destruct (crho_pos n ltac:(lra)) as [P _]. rewrite (Rabs_pos_eq (crho n)) by lra.
      replace (- (2 / 3 * (csm (S n) - (x + 1)))) with (- (2 / 3 * (csm (S n) - csm n)) + - (2 / 3 * (csm n - (x + 1)))) by ring. rewrite exp_plus.
      replace (Rabs (cD 0) * (exp (- (2 / 3 * (csm (S n) - csm n))) * exp (- (2 / 3 * (csm n - (x + 1)))))) with (exp (- (2 / 3 * (csm (S n) - csm n))) * (Rabs (cD 0) * exp (- (2 / 3 * (csm n - (x + 1)))))) by ring.
      apply Rmult_le_compat; [lra|apply Rabs_pos|exact E|exact IH].
    + pose proof (cD_decr 0 (S n)) as Dc. cbn [Nat.add] in Dc. apply Rle_trans with (1 := Dc).
      rewrite <- (Rmult_1_r (Rabs (cD 0))) at 1. apply Rmult_le_compat_l; [apply Rabs_pos|].
      assert (csm (S n) <= x + 1).
      { apply Rsqr_incr_0; [|apply sqrt_pos|lra]. unfold Rsqr. rewrite csm_sq, S_INR. nra. }
      apply exp_ge_1. lra.
Qed.
(** As long as the loop has not stopped, sqrt(m/x) is at most 57. *)
Lemma ln_1e15 : 1000000000000000 <= exp 35.
Proof.
  assert (E : 269 / 100 <= exp 1).
  { pose proof (exp_low 1 64 ltac:(lia)) as L. replace (INR 64) with 64 in L by (cbn; ring). specialize (L ltac:(lra)). cbn [pow] in L. lra. }
  replace 35 with (INR 35 * 1) by (cbn; ring). rewrite exp_INR. apply Rle_trans with ((269 / 100) ^ 35); [cbn [pow]; lra|]. apply pow_incr. lra.
Qed.
Lemma cf_iter n : / 1000000000000000 * cA (S n) < Rabs (cD n) -> csm n / x <= 56.
Proof.
  intros H. pose proof (cA_low (S n)) as Lo. pose proof (cD_exp n) as E. pose proof cD_0 as D0. pose proof (Rabs_pos (cD 0)) as A0.
  assert (X : 1 < (x + 1) * 1000000000000000 * exp (- (2 / 3 * (csm n - (x + 1))))).
  { assert (I : / (x + 1) * (x + 1) = 1) by (apply Rinv_l; lra).
    assert (S1 : / 1000000000000000 * / (x + 1) < Rabs (cD 0) * exp (- (2 / 3 * (csm n - (x + 1))))) by lra.
    assert (D1 : Rabs (cD 0) <= 1) by (apply Rmult_le_reg_r with (x + 1); lra).
    pose proof (exp_pos (- (2 / 3 * (csm n - (x + 1))))) as EP. set (e := exp (- (2 / 3 * (csm n - (x + 1))))) in *.
    assert (S2 : / 1000000000000000 * / (x + 1) < e) by (assert (Rabs (cD 0) * e <= 1 * e) by (apply Rmult_le_compat_r; lra); lra).
    apply (Rmult_lt_compat_l ((x + 1) * 1000000000000000)) in S2; [|lra]. replace ((x + 1) * 1000000000000000 * (/ 1000000000000000 * / (x + 1))) with 1 in S2 by (field; lra). exact S2. }
  assert (B : 2 / 3 * (csm n - (x + 1)) < x + 35).
  { apply Rnot_le_lt. intros C. assert (P : (x + 1) * 1000000000000000 <= exp (x + 35)).
    { rewrite exp_plus. apply Rmult_le_compat; [lra|lra|pose proof (exp_ineq1_le x); lra|apply ln_1e15]. }
    assert (Q : exp (- (2 / 3 * (csm n - (x + 1)))) <= exp (- (x + 35))).
    { destruct C as [C|C]; [left; apply exp_increasing; lra|rewrite C; lra]. }
    pose proof (exp_pos (- (x + 35))) as EP. assert (O : exp (x + 35) * exp (- (x + 35)) = 1) by (rewrite <- exp_plus, Rplus_opp_r; apply exp_0).
    assert ((x + 1) * 1000000000000000 * exp (- (2 / 3 * (csm n - (x + 1)))) <= exp (x + 35) * exp (- (x + 35))) by (apply Rmult_le_compat; [lra|left; apply exp_pos|exact P|exact Q]).
    lra. }
  apply Rmult_le_reg_r with x; [lra|]. unfold Rdiv. rewrite Rmult_assoc, Rinv_l by lra. lra.
Qed.
Lemma csm_next n : csm (S n) / x <= csm n / x + 1.
Proof.
  pose proof (csm_S n) as S. pose proof (csm_pos n) as P. assert (x / (2 * csm n) <= x).
  { apply Rmult_le_reg_r with (2 * csm n); [lra|]. unfold Rdiv. rewrite Rmult_assoc, Rinv_l by lra. rewrite Rmult_1_r. rewrite <- (Rmult_1_r x) at 1. apply Rmult_le_compat_l; lra. }
  apply Rmult_le_reg_r with x; [lra|]. rewrite Rmult_plus_distr_r. unfold Rdiv. rewrite !Rmult_assoc, Rinv_l by lra. lra.
Qed.
End Fixed.
Unset Default Proof Using.

(** ** Derivatives of the numerators and denominators *)
Lemma cz_derive a n t : is_derive (fun t => cz a t n) t 1.
Proof. unfold cz. auto_derive; [exact I|]. match goal with |- ?a = ?b => change (@eq R a b) end. ring. Qed.
Lemma cf2_derive a n t (f0 f1 : R -> R) c d0 d1 :
  is_derive f0 t d0 -> is_derive f1 t d1 ->
  is_derive (fun t => f1 t * cz a t n - f0 t * c) t (d1 * cz a t n + f1 t - d0 * c).
Proof.
  intros D0 D1. apply (is_derive_ext (fun t => minus (mult (f1 t) (cz a t n)) (mult (f0 t) c))); [reflexivity|].
  replace (d1 * cz a t n + f1 t - d0 * c) with (minus (plus (mult d1 (cz a t n)) (mult (f1 t) 1)) (plus (mult d0 c) (mult (f0 t) 0))).
  2:{ unfold minus, plus, opp, mult; cbn. ring. }
  apply (is_derive_minus (fun t => mult (f1 t) (cz a t n)) (fun t => mult (f0 t) c)).
  - apply (is_derive_mult f1 (fun t => cz a t n)); [exact D1|apply cz_derive|intros; apply Rmult_comm].
  - apply (is_derive_mult f0 (fun _ => c)); [exact D0|exact (is_derive_const c t)|intros; apply Rmult_comm].
Qed.
Lemma cq_derive a t n : t <> 0 ->
  is_derive (fun t => cq a t n) t ((cq a t (S n) - (t + INR n + 2 - a) * cq a t n) / t) /\
  is_derive (fun t => cq a t (S n)) t ((cq a t (S (S n)) - (t + INR (S n) + 2 - a) * cq a t (S n)) / t).
Proof.
  intros Ht. induction n as [|n [D0 D1]].
  - split.
    + apply (is_derive_ext (fun _ => 1)); [reflexivity|]. rewrite cq_1, cq_0. change (INR 0) with 0.
      replace ((t + 2 - a - (t + 0 + 2 - a) * 1) / t) with 0 by (field; assumption). exact (is_derive_const 1 t).
    + apply (is_derive_ext (fun t => t + 2 - a)); [reflexivity|]. rewrite cq_S, cq_1, cq_0. unfold cz, cy. change (INR 1) with 1. change (INR 0) with 0.
      auto_derive; [exact I|]. match goal with |- ?a = ?b => change (@eq R a b) end. field. assumption.
  - split; [exact D1|]. 
    apply (is_derive_ext (fun t => cq a t (S n) * cz a t n - cq a t n * cy a n)); [intros u; now rewrite cq_S|].
    pose proof (cf2_derive a n t (fun t => cq a t n) (fun t => cq a t (S n)) (cy a n) _ _ D0 D1) as D.
    match type of D with is_derive _ _ ?d => replace ((cq a t (S (S (S n))) - (t + INR (S (S n)) + 2 - a) * cq a t (S (S n))) / t) with d; [exact D|] end.
    cbv beta. rewrite (cq_S a t (S n)), (cq_S a t n). unfold cz, cy. rewrite !S_INR. field. assumption.
Qed.
Lemma cp_derive a t n : t <> 0 ->
  is_derive (fun t => cp a t n) t ((cp a t (S n) - (INR n + 1) * cp a t n - t * cq a t n) / t) /\
  is_derive (fun t => cp a t (S n)) t ((cp a t (S (S n)) - (INR (S n) + 1) * cp a t (S n) - t * cq a t (S n)) / t).
Proof.
  intros Ht. induction n as [|n [D0 D1]].
  - split.
    + apply (is_derive_ext (fun _ => 1)); [reflexivity|]. rewrite cp_1, cp_0, cq_0. change (INR 0) with 0.
      replace ((t + 1 - (0 + 1) * 1 - t * 1) / t) with 0 by (field; assumption). exact (is_derive_const 1 t).
    + apply (is_derive_ext (fun t => t + 1)); [reflexivity|]. rewrite cp_S, cp_1, cp_0, cq_1. unfold cz, cy. change (INR 1) with 1. change (INR 0) with 0.
      auto_derive; [exact I|]. match goal with |- ?a = ?b => change (@eq R a b) end. field. assumption.
  - split; [exact D1|].
    apply (is_derive_ext (fun t => cp a t (S n) * cz a t n - cp a t n * cy a n)); [intros u; now rewrite cp_S|].
    pose proof (cf2_derive a n t (fun t => cp a t n) (fun t => cp a t (S n)) (cy a n) _ _ D0 D1) as D.
    match type of D with is_derive _ _ ?d => replace ((cp a t (S (S (S n))) - (INR (S (S n)) + 1) * cp a t (S (S n)) - t * cq a t (S (S n))) / t) with d; [exact D|] end.
    cbv beta. rewrite (cp_S a t (S n)), (cp_S a t n), (cq_S a t n). unfold cz, cy. rewrite !S_INR. field. assumption.
Qed.
Lemma cq_incr a x y n : 0 < a -> 1 <= x -> a <= x -> x <= y -> cq a x n <= cq a y n.
Proof.
  intros Ha Hx Hax Hy. destruct (Req_dec x y) as [->|N]; [lra|].
  destruct (MVT_gen (fun t => cq a t n) x y (fun t => (cq a t (S n) - (t + INR n + 2 - a) * cq a t n) / t)) as [c [Hc E]].
  - intros t Ht. rewrite Rmin_left, Rmax_right in Ht by lra. exact (proj1 (cq_derive a t n ltac:(lra))).
  - intros t Ht. rewrite Rmin_left, Rmax_right in Ht by lra. apply continuity_pt_filterlim. apply (ex_derive_continuous (fun t => cq a t n)). exists ((cq a t (S n) - (t + INR n + 2 - a) * cq a t n) / t). exact (proj1 (cq_derive a t n ltac:(lra))).
  - rewrite Rmin_left, Rmax_right in Hc by lra. pose proof (cq_ge a c Ha ltac:(lra) ltac:(lra) n).
    assert (0 <= (cq a c (S n) - (c + INR n + 2 - a) * cq a c n) / c * (y - x)).
    { apply Rmult_le_pos; [|lra]. apply Rmult_le_pos; [lra|left; apply Rinv_0_lt_compat; lra]. }
    lra.
Qed.
(** The convergent times the integrand. *)
Definition cE (a : R) (n : nat) (t : R) : R := Rpower t (a - 1) * exp (- t) * (cp a t n / cq a t n).
Lemma cE_derive a n t : 0 < a -> 1 <= t -> a <= t ->
  is_derive (cE a n) t (ck a n * (Rpower t (a - 1) * exp (- t)) / (t * (cq a t n * cq a t n)) - Rpower t (a - 1) * exp (- t)).
Proof.
  intros Ha Ht Hat. pose proof (cq_pos a t Ha Ht Hat n) as Q.
  set (dp := (cp a t (S n) - (INR n + 1) * cp a t n - t * cq a t n) / t). set (dq := (cq a t (S n) - (t + INR n + 2 - a) * cq a t n) / t).
  assert (Dp : is_derive (fun t => cp a t n) t dp) by exact (proj1 (cp_derive a t n ltac:(lra))).
  assert (Dq : is_derive (fun t => cq a t n) t dq) by exact (proj1 (cq_derive a t n ltac:(lra))).
  assert (De : is_derive (fun t => Rpower t (a - 1) * exp (- t)) t (((a - 1) / t - 1) * (Rpower t (a - 1) * exp (- t)))).
  { unfold Rpower. auto_derive; [lra|]. match goal with |- ?a = ?b => change (@eq R a b) end. field. lra. }
  assert (Dr : is_derive (fun t => cp a t n / cq a t n) t ((dp * cq a t n - cp a t n * dq) / (cq a t n) ^ 2)).
  { apply (is_derive_div (fun t => cp a t n) (fun t => cq a t n)); [exact Dp|exact Dq|lra]. }
  pose proof (is_derive_mult _ _ t _ _ De Dr ltac:(intros; apply Rmult_comm)) as D.
  match type of D with is_derive _ _ ?d => match goal with |- is_derive _ _ ?e => replace e with d; [exact D|] end end.
  unfold plus, mult; cbn. rewrite <- (cw a t n). unfold dp, dq. field. split; lra.
Qed.
Lemma cp_bound a n : 0 < a -> exists M, 0 <= M /\ forall t, 1 <= t -> a <= t ->
  Rabs (cp a t n) <= M * cq a t n /\ Rabs (cp a t (S n)) <= M * cq a t (S n).
Proof.
  intros Ha. induction n as [|n (M & M0 & HM)].
  - exists (a + 2). split; [lra|]. intros t Ht Hat. rewrite cp_0, cp_1, cq_0, cq_1. assert (0 <= a * (t - a)) by (apply Rmult_le_pos; lra). split; apply Rabs_le; lra.
  - pose proof (pos_INR n) as N0. exists (M * (1 + (INR n + 2) + Rabs (cy a n))). split.
    { apply Rmult_le_pos; [assumption|]. pose proof (Rabs_pos (cy a n)). lra. }
    intros t Ht Hat. destruct (HM t Ht Hat) as [B0 B1]. pose proof (cq_pos a t Ha Ht Hat n) as Q0. pose proof (cq_pos a t Ha Ht Hat (S n)) as Q1. pose proof (cq_pos a t Ha Ht Hat (S (S n))) as Q2.
    pose proof (cq_ge a t Ha Ht Hat n) as G0. pose proof (cq_ge a t Ha Ht Hat (S n)) as G1. rewrite S_INR in G1. pose proof (Rabs_pos (cy a n)) as Y0.
    assert (MQ : 0 <= M * cq a t (S n)) by (apply Rmult_le_pos; lra).
    split.
    + apply Rle_trans with (1 := B1). assert (0 <= (M * cq a t (S n)) * (INR n + 2 + Rabs (cy a n))) by (apply Rmult_le_pos; lra). lra.
    + rewrite cp_S. apply Rle_trans with (1 := Rabs_triang _ _). rewrite Rabs_Ropp, !Rabs_mult.
      assert (Z : 0 <= cz a t n) by (unfold cz; lra). rewrite (Rabs_pos_eq (cz a t n)) by assumption.
      set (e := t + (INR n + 1) + 2 - a) in *. assert (E1 : 1 <= e) by (unfold e; lra).
      assert (T1 : Rabs (cp a t (S n)) * cz a t n <= M * cq a t (S n) * (e * (INR n + 2))).
      { apply Rmult_le_compat; [apply Rabs_pos|assumption|assumption|]. unfold cz, e in *. nra. }
      assert (Q01 : cq a t n <= cq a t (S n)).
      { assert (1 * cq a t n <= (t + INR n + 2 - a) * cq a t n) by (apply Rmult_le_compat_r; lra). lra. }
      assert (T2 : Rabs (cp a t n) * Rabs (cy a n) <= M * cq a t (S n) * (e * Rabs (cy a n))).
      { apply Rmult_le_compat; [apply Rabs_pos|assumption| |rewrite <- (Rmult_1_l (Rabs (cy a n))) at 1; apply Rmult_le_compat_r; assumption].
        apply Rle_trans with (1 := B0). apply Rmult_le_compat_l; assumption. }
      assert (T3 : M * (INR n + 2 + Rabs (cy a n)) * (e * cq a t (S n)) <= M * (INR n + 2 + Rabs (cy a n)) * cq a t (S (S n))).
      { apply Rmult_le_compat_l; [apply Rmult_le_pos; lra|exact G1]. }
      assert (0 <= M * cq a t (S (S n))) by (apply Rmult_le_pos; lra). lra.
Qed.
Lemma cE_lim a n : 0 < a -> is_lim (cE a n) p_infty 0.
Proof.
  intros Ha. destruct (cp_bound a n Ha) as (M & M0 & HM).
  pose proof (gterm_lim_inf (a - 1)) as L.
  apply (is_lim_le_le_loc (fun t => - (M * (Rpower t (a - 1) * exp (- t)))) (fun t => M * (Rpower t (a - 1) * exp (- t)))).
  - exists (Rmax 1 a). intros t Ht. pose proof (Rmax_l 1 a). pose proof (Rmax_r 1 a). destruct (HM t ltac:(lra) ltac:(lra)) as [B _].
    pose proof (cq_pos a t Ha ltac:(lra) ltac:(lra) n) as Q. unfold cE. pose proof (gint_pos a t) as G. set (w := Rpower t (a - 1) * exp (- t)) in *.
    assert (Rabs (cp a t n / cq a t n) <= M).
    { unfold Rdiv. rewrite Rabs_mult, (Rabs_pos_eq (/ _)) by (left; now apply Rinv_0_lt_compat). apply Rmult_le_reg_r with (cq a t n); [assumption|]. rewrite Rmult_assoc, Rinv_l by lra. lra. }
    apply Rabs_le_between in H1. split.
    + replace (- (M * w)) with (w * (- M)) by ring. apply Rmult_le_compat_l; lra.
    + rewrite (Rmult_comm M). apply Rmult_le_compat_l; lra.
  - replace (Finite 0) with (Rbar_opp (Rbar_mult M 0)) by (cbn; f_equal; ring). apply is_lim_opp. now apply is_lim_scal_l.
  - replace (Finite 0) with (Rbar_mult M 0) by (cbn; f_equal; ring). now apply is_lim_scal_l.
Qed.
(** A function with nonpositive derivative and limit 0 is nonnegative. *)
Lemma decr_lim_0 (f df : R -> R) x : (forall t, x <= t -> is_derive f t (df t)) -> (forall t, x <= t -> df t <= 0) -> is_lim f p_infty 0 -> 0 <= f x.
Proof.
  intros D N L. apply Rnot_lt_le. intros C. apply is_lim_spec in L.
  destruct (L (mkposreal (- f x) ltac:(lra))) as [M HM]. set (y := Rmax M x + 1). pose proof (Rmax_l M x). pose proof (Rmax_r M x).
  specialize (HM y ltac:(unfold y; lra)). cbn in HM. apply Rabs_def2 in HM.
  destruct (MVT_gen f x y df) as [c [Hc E]].
  - intros t Ht. rewrite Rmin_left, Rmax_right in Ht by (unfold y; lra). apply D. lra.
  - intros t Ht. rewrite Rmin_left, Rmax_right in Ht by (unfold y; lra). apply continuity_pt_filterlim. apply (ex_derive_continuous f). eexists. apply D. lra.
  - rewrite Rmin_left, Rmax_right in Hc by (unfold y; lra). pose proof (N c ltac:(lra)).
    assert (0 <= - df c * (y - x)) by (apply Rmult_le_pos; [lra|unfold y; lra]). lra.
Qed.
(** Distance of a convergent from the true value. *)
Lemma cE_error a g F n x : 0 < a -> 1 <= x -> a <= x -> is_glr a g F ->
  Rabs (cE a n x - g * (1 - F x)) <= Rabs (ck a n) / (x * (cq a x n * cq a x n)) * (g * (1 - F x)).
Proof.
  intros Ha Hx Hax (Pg & DF & _ & LF). set (c := Rabs (ck a n) / (x * (cq a x n * cq a x n))).
  set (U := fun t => g * (1 - F t)).
  assert (DU : forall t, x <= t -> is_derive U t (- (Rpower t (a - 1) * exp (- t)))).
  { intros t Ht. pose proof (DF t ltac:(lra)) as D. replace (- (Rpower t (a - 1) * exp (- t))) with (g * (0 - Rpower t (a - 1) * exp (- t) / g)) by (field; lra).
    apply is_derive_scal. apply (is_derive_minus (fun _ => 1) F); [exact (is_derive_const 1 t)|exact D]. }
  assert (LU : is_lim U p_infty 0).
  { replace (Finite 0) with (Rbar_mult g (1 - 1)) by (cbn; f_equal; ring). apply is_lim_scal_l. apply (is_lim_minus' (fun _ => 1) F); [apply is_lim_const|exact LF]. }
  assert (Pq : 0 < cq a x n) by (apply cq_pos; assumption).
  assert (Key : forall t, x <= t -> Rabs (ck a n * (Rpower t (a - 1) * exp (- t)) / (t * (cq a t n * cq a t n))) <= c * (Rpower t (a - 1) * exp (- t))).
  { intros t Ht. pose proof (gint_pos a t) as G. set (w := Rpower t (a - 1) * exp (- t)) in *. pose proof (cq_incr a x t n Ha Hx Hax Ht) as I.
    assert (P1 : 0 < x * (cq a x n * cq a x n)) by (apply Rmult_lt_0_compat; [lra|]; now apply Rmult_lt_0_compat).
    assert (P2 : x * (cq a x n * cq a x n) <= t * (cq a t n * cq a t n)).
    { apply Rmult_le_compat; [lra|left; now apply Rmult_lt_0_compat|assumption|]. apply Rmult_le_compat; lra. }
    unfold Rdiv. rewrite Rabs_mult, Rabs_mult, (Rabs_pos_eq w) by lra. rewrite (Rabs_pos_eq (/ _)) by (left; apply Rinv_0_lt_compat; lra).
    unfold c, Rdiv. replace (Rabs (ck a n) * / (x * (cq a x n * cq a x n)) * w) with (Rabs (ck a n) * w * / (x * (cq a x n * cq a x n))) by ring.
    apply Rmult_le_compat_l; [apply Rmult_le_pos; [apply Rabs_pos|lra]|]. apply Rinv_le_contravar; assumption. }
  assert (Z0 : forall s : R, Finite 0 = Rbar_plus 0 (Rbar_mult s 0)) by (intros; cbn; f_equal; ring).
  assert (LD : is_lim (fun t => cE a n t - U t) p_infty 0).
  { replace (Finite 0) with (Finite (0 - 0)) by (f_equal; ring). apply (is_lim_minus' (cE a n) U); [now apply cE_lim|exact LU]. }
  assert (DD : forall t, x <= t -> is_derive (fun t => cE a n t - U t) t (ck a n * (Rpower t (a - 1) * exp (- t)) / (t * (cq a t n * cq a t n)))).
  { intros t Ht. pose proof (cE_derive a n t Ha ltac:(lra) ltac:(lra)) as D. pose proof (is_derive_minus _ _ t _ _ D (DU t Ht)) as D'.
    match type of D' with is_derive _ _ ?d => match goal with |- is_derive _ _ ?e => replace e with d; [exact D'|] end end.
    unfold minus, plus, opp; cbn. ring. }
  assert (A1 : 0 <= c * U x - (cE a n x - U x)).
  { apply (decr_lim_0 (fun t => c * U t - (cE a n t - U t)) (fun t => c * (- (Rpower t (a - 1) * exp (- t))) - ck a n * (Rpower t (a - 1) * exp (- t)) / (t * (cq a t n * cq a t n)))).
    - intros t Ht. apply (is_derive_minus (fun t => c * U t) (fun t => cE a n t - U t)); [apply is_derive_scal; now apply DU|now apply DD].
    - intros t Ht. pose proof (Key t Ht) as K. apply Rabs_le_between in K. lra.
    - replace (Finite 0) with (Finite (c * 0 - 0)) by (f_equal; ring). apply (is_lim_minus' (fun t => c * U t) (fun t => cE a n t - U t)); [|exact LD].
      replace (Finite (c * 0)) with (Rbar_mult c 0) by reflexivity. now apply is_lim_scal_l. }
  assert (A2 : 0 <= c * U x + (cE a n x - U x)).
  { apply (decr_lim_0 (fun t => c * U t + (cE a n t - U t)) (fun t => c * (- (Rpower t (a - 1) * exp (- t))) + ck a n * (Rpower t (a - 1) * exp (- t)) / (t * (cq a t n * cq a t n)))).
    - intros t Ht. apply (is_derive_plus (fun t => c * U t) (fun t => cE a n t - U t)); [apply is_derive_scal; now apply DU|now apply DD].
    - intros t Ht. pose proof (Key t Ht) as K. apply Rabs_le_between in K. lra.
    - replace (Finite 0) with (Finite (c * 0 + 0)) by (f_equal; ring). apply (is_lim_plus' (fun t => c * U t) (fun t => cE a n t - U t)); [|exact LD].
      replace (Finite (c * 0)) with (Rbar_mult c 0) by reflexivity. now apply is_lim_scal_l. }
  change (g * (1 - F x)) with (U x). apply Rabs_le. lra.
Qed.

(** ** Convergence to the true value *)
(** e^x x^(-a) Gamma(a,x). *)
Definition cG (a g : R) (F : R -> R) (x : R) : R := g * (1 - F x) / (Rpower x a * exp (- x)).
Lemma cE_cA a n x : 0 < a -> 1 <= x -> a <= x -> cE a n x = Rpower x a * exp (- x) * cA a x n.
Proof.
  intros Ha Hx Hax. pose proof (cq_pos a x Ha Hx Hax n). unfold cE, cA. replace (Rpower x a) with (Rpower x (a - 1) * x).
  2:{ rewrite <- (Rpower_1 x) at 2 by lra. rewrite <- Rpower_plus. f_equal. ring. }
  field. split; lra.
Qed.
Lemma cA_error a g F n x : 0 < a -> 1 <= x -> a <= x -> is_glr a g F ->
  Rabs (cA a x n - cG a g F x) <= Rabs (cD a x n) * cd a x n * Rabs (cG a g F x).
Proof.
  intros Ha Hx Hax HF. pose proof (cE_error a g F n x Ha Hx Hax HF) as B. rewrite cE_cA in B by assumption.
  set (w := Rpower x a * exp (- x)) in *. assert (W : 0 < w) by (apply Rmult_lt_0_compat; apply exp_pos).
  replace (g * (1 - F x)) with (w * cG a g F x) in B by (unfold cG; fold w; field; lra).
  rewrite <- Rmult_minus_distr_l, Rabs_mult, (Rabs_pos_eq w) in B by lra.
  pose proof (cq_pos a x Ha Hx Hax n) as Q. pose proof (cq_pos a x Ha Hx Hax (S n)) as Q1.
  apply Rmult_le_reg_l with w; [assumption|]. apply Rle_trans with (1 := B).
  unfold cD, cd. unfold Rdiv at 2. rewrite Rabs_mult, (Rabs_pos_eq (/ _)).
  2:{ left. apply Rinv_0_lt_compat. apply Rmult_lt_0_compat; [lra|now apply Rmult_lt_0_compat]. }
  replace (w * (Rabs (ck a n) * / (x * (cq a x n * cq a x (S n))) * (cq a x (S n) / cq a x n) * Rabs (cG a g F x)))
    with (Rabs (ck a n) / (x * (cq a x n * cq a x n)) * (w * Rabs (cG a g F x))) by (field; repeat split; lra).
  apply Rmult_le_compat_l; [|apply Rmult_le_compat_l; [lra|apply RRle_abs]].
  apply Rmult_le_pos; [apply Rabs_pos|]. left. apply Rinv_0_lt_compat. apply Rmult_lt_0_compat; [lra|now apply Rmult_lt_0_compat].
Qed.
Lemma cD_poly a x n : 0 < a -> 1 <= x -> a <= x -> Rabs (cD a x n) <= 1296 * exp (x + 1) / ((INR n + 1) * (INR n + 1)).
Proof.
  intros Ha Hx Hax. pose proof (cD_exp a x Ha Hx Hax n) as E. pose proof (cD_0 a x Ha Hx Hax) as D0. pose proof (pos_INR n) as N0.
  assert (D1 : Rabs (cD a x 0) <= 1) by (apply Rmult_le_reg_r with (x + 1); lra).
  pose proof (csm_pos a x Ha Hx Hax n) as S1. pose proof (csm_sq a x Ha Hx Hax n) as SQ. set (s := csm x n) in *.
  assert (L : (s / 6) * (s / 6) * ((s / 6) * (s / 6)) <= exp (2 / 3 * s)).
  { pose proof (exp_low (2 / 3 * s) 4 ltac:(lia)) as L. replace (INR 4) with 4 in L by (cbn; ring). specialize (L ltac:(lra)).
    replace (1 + 2 / 3 * s / 4) with (1 + s / 6) in L by field. apply Rle_trans with (2 := L). cbn [pow]. rewrite Rmult_1_r.
    rewrite <- Rmult_assoc. rewrite <- (Rmult_assoc (1 + s / 6) (1 + s / 6)).
    assert (0 <= s / 6) by lra. set (u := s / 6) in *. assert (H2 : u * u <= (1 + u) * (1 + u)) by (apply Rmult_le_compat; lra).
    rewrite !Rmult_assoc. rewrite <- (Rmult_assoc u u (u * u)). rewrite <- (Rmult_assoc (1 + u) (1 + u) ((1 + u) * (1 + u))).
    apply Rmult_le_compat; try assumption; apply Rmult_le_pos; assumption. }
  set (m := INR n + 1) in *. assert (M1 : 1 <= m) by (unfold m; lra).
  assert (L2 : m * m / 1296 <= exp (2 / 3 * s)).
  { apply Rle_trans with (2 := L). replace (s / 6 * (s / 6) * (s / 6 * (s / 6))) with ((s * s) * (s * s) / 1296) by field. rewrite SQ.
    assert (m * m <= x * m * (x * m)). { assert (1 * m <= x * m) by (apply Rmult_le_compat_r; lra). apply Rmult_le_compat; lra. } lra. }
  apply Rle_trans with (1 := E). apply Rle_trans with (1 * exp (- (2 / 3 * (s - (x + 1))))); [apply Rmult_le_compat_r; [left; apply exp_pos|exact D1]|].
  rewrite Rmult_1_l. replace (- (2 / 3 * (s - (x + 1)))) with (2 / 3 * (x + 1) + - (2 / 3 * s)) by ring. rewrite exp_plus, exp_Ropp.
  replace (1296 * exp (x + 1) / (m * m)) with (exp (x + 1) * / (m * m / 1296)) by (field; lra).
  apply Rmult_le_compat; [left; apply exp_pos|left; apply Rinv_0_lt_compat, exp_pos|left; apply exp_increasing; lra|].
  apply Rinv_le_contravar; [|exact L2]. apply Rdiv_lt_0_compat; [apply Rmult_lt_0_compat|]; lra.
Qed.
Lemma cd_up a x n : 0 < a -> 1 <= x -> a <= x -> a <= INR n + 2 -> cd a x (S n) <= (x + 4) * (INR n + 2).
Proof.
  intros Ha Hx Hax L. rewrite cd_S by assumption. pose proof (cd_pos a x Ha Hx Hax n) as P. pose proof (pos_INR n) as N0.
  assert (0 <= cy a n / cd a x n). { apply Rmult_le_pos; [|left; now apply Rinv_0_lt_compat]. unfold cy. apply Rmult_le_pos; lra. }
  unfold cz. assert (0 <= (x + 2) * (INR n)) by (apply Rmult_le_pos; lra). lra.
Qed.
Lemma cA_lim a g F x : 0 < a -> 1 <= x -> a <= x -> is_glr a g F -> is_lim_seq (cA a x) (cG a g F x).
Proof.
  intros Ha Hx Hax HF. set (K := 1296 * exp (x + 1) * (x + 4) * Rabs (cG a g F x)).
  assert (K0 : 0 <= K). { unfold K. apply Rmult_le_pos; [|apply Rabs_pos]. apply Rmult_le_pos; [|lra]. pose proof (exp_pos (x + 1)). lra. }
  apply (is_lim_seq_incr_n _ 1). apply (is_lim_seq_ext (fun n => cA a x (S n))); [intros n; f_equal; lia|].
  apply (is_lim_seq_le_le_loc (fun n => cG a g F x - K * / (INR n + 2)) _ (fun n => cG a g F x + K * / (INR n + 2))).
  - destruct (nfloor_ex a ltac:(lra)) as [N HN]. exists N. intros n Hn. apply le_INR in Hn. pose proof (pos_INR n) as N0.
    pose proof (cA_error a g F (S n) x Ha Hx Hax HF) as B. pose proof (cD_poly a x (S n) Ha Hx Hax) as P. rewrite S_INR in P.
    pose proof (cd_up a x n Ha Hx Hax ltac:(lra)) as U. pose proof (cd_pos a x Ha Hx Hax (S n)) as D0.
    assert (C : Rabs (cD a x (S n)) * cd a x (S n) * Rabs (cG a g F x) <= K * / (INR n + 2)).
    { unfold K. replace (1296 * exp (x + 1) * (x + 4) * Rabs (cG a g F x) * / (INR n + 2)) with (1296 * exp (x + 1) / ((INR n + 1 + 1) * (INR n + 1 + 1)) * ((x + 4) * (INR n + 2)) * Rabs (cG a g F x)) by (field; lra).
      apply Rmult_le_compat_r; [apply Rabs_pos|]. apply Rmult_le_compat; [apply Rabs_pos|lra|exact P|exact U]. }
    assert (B' : Rabs (cA a x (S n) - cG a g F x) <= K * / (INR n + 2)) by lra. apply Rabs_le_between in B'. lra.
  - assert (L : is_lim_seq (fun n => K * / (INR n + 2)) 0).
    { replace (Finite 0) with (Rbar_mult K 0) by (cbn; f_equal; ring). apply is_lim_seq_scal_l.
      replace (Finite 0) with (Rbar_inv p_infty) by reflexivity. apply is_lim_seq_inv; [|discriminate].
      apply (is_lim_seq_plus _ _ p_infty 2); [apply is_lim_seq_INR|apply is_lim_seq_const|reflexivity]. }
    replace (Finite (cG a g F x)) with (Finite (cG a g F x - 0)) by (f_equal; ring). apply is_lim_seq_minus'; [apply is_lim_seq_const|exact L].
  - assert (L : is_lim_seq (fun n => K * / (INR n + 2)) 0).
    { replace (Finite 0) with (Rbar_mult K 0) by (cbn; f_equal; ring). apply is_lim_seq_scal_l.
      replace (Finite 0) with (Rbar_inv p_infty) by reflexivity. apply is_lim_seq_inv; [|discriminate].
      apply (is_lim_seq_plus _ _ p_infty 2); [apply is_lim_seq_INR|apply is_lim_seq_const|reflexivity]. }
    replace (Finite (cG a g F x)) with (Finite (cG a g F x + 0)) by (f_equal; ring). apply is_lim_seq_plus'; [apply is_lim_seq_const|exact L].
Qed.
Lemma cA_true a g F x n : 0 < a -> 1 <= x -> a <= x -> is_glr a g F ->
  Rabs (cA a x (S n) - cG a g F x) <= (cC x n + 3) * Rabs (cD a x n).
Proof.
  intros Ha Hx Hax HF. pose proof (cA_lim a g F x Ha Hx Hax HF) as L. set (B := (cC x n + 3) * Rabs (cD a x n)).
  assert (L' : is_lim_seq (fun N => cA a x (S n + N)) (cG a g F x)).
  { apply (is_lim_seq_incr_n _ (S n)) in L. revert L. apply is_lim_seq_ext. intros k. f_equal. lia. }
  assert (T : forall N, cA a x (S n) - B <= cA a x (S n + N) <= cA a x (S n) + B).
  { intros N. pose proof (cA_tail a x Ha Hx Hax n N) as T. fold B in T. apply Rabs_le_between in T. lra. }
  assert (U : Rbar_le (cG a g F x) (cA a x (S n) + B)).
  { apply (is_lim_seq_le (fun N => cA a x (S n + N)) (fun _ => cA a x (S n) + B)); [intros N; apply T|exact L'|apply is_lim_seq_const]. }
  assert (V : Rbar_le (cA a x (S n) - B) (cG a g F x)).
  { apply (is_lim_seq_le (fun _ => cA a x (S n) - B) (fun N => cA a x (S n + N))); [intros N; apply T|apply is_lim_seq_const|exact L']. }
  cbn in U, V. apply Rabs_le. lra.
Qed.

(** ** The loop *)
Lemma lr_cf_run a x k : 0 < a -> 1 <= x -> a <= x -> forall n l v, 0 < l ->
  lr_cf k (INR n + 1 - a) (x + 2 - a + 2 * INR n) (INR n) (l * cp a x n) (l * (x * cq a x n)) (l * cp a x (S n)) (l * (x * cq a x (S n))) (cA a x (S n)) = Some v ->
  exists m, (S n <= m)%nat /\ v = cA a x (S m) /\ Rabs (cD a x m) <= / 1000000000000000 * v /\
    (m = S n \/ exists j, m = S j /\ / 1000000000000000 * cA a x (S j) < Rabs (cD a x j)).
Proof.
  intros Ha Hx Hax. induction k as [|k IH]; intros n l v Hl; cbn [lr_cf]; [discriminate|]. rb. rops. rewrite !lit_2.
  pose proof (cq_pos a x Ha Hx Hax n) as Q0. pose proof (cq_pos a x Ha Hx Hax (S n)) as Q1. pose proof (cq_pos a x Ha Hx Hax (S (S n))) as Q2.
  replace (l * cp a x (S n) * (x + 2 - a + 2 * INR n + 2) - l * cp a x n * ((INR n + 1 - a + 1) * (INR n + 1))) with (l * cp a x (S (S n)))
    by (rewrite cp_S; unfold cz, cy; ring).
  replace (l * (x * cq a x (S n)) * (x + 2 - a + 2 * INR n + 2) - l * (x * cq a x n) * ((INR n + 1 - a + 1) * (INR n + 1))) with (l * (x * cq a x (S (S n))))
    by (rewrite cq_S; unfold cz, cy; ring).
  assert (XQ : 0 < l * (x * cq a x (S (S n)))) by (apply Rmult_lt_0_compat; [lra|]; apply Rmult_lt_0_compat; lra).
  replace (R_eqb (l * (x * cq a x (S (S n)))) 0) with false by (symmetry; apply R_eqb_false; lra). cbn [negb].
  replace (l * cp a x (S (S n)) / (l * (x * cq a x (S (S n))))) with (cA a x (S (S n))) by (unfold cA; field; repeat split; lra).
  pose proof (cA_pos a x Ha Hx Hax (S (S n))) as AP.
  assert (ERR : Rabs ((cA a x (S n) - cA a x (S (S n))) / cA a x (S (S n))) = Rabs (cD a x (S n)) / cA a x (S (S n))).
  { rewrite <- (cD_eq a x Ha Hx Hax). unfold Rdiv. rewrite Rabs_mult, (Rabs_pos_eq (/ _)) by (left; now apply Rinv_0_lt_compat). f_equal. apply Rabs_minus_sym. }
  rewrite ERR. rewrite lr_eps_R.
  assert (BI : 0 < lr_big_inv) by (unfold lr_big_inv; rewrite lit_R; lra).
  unfold R_leb. 
  assert (Stop : forall (P : option R), (if Rle_dec (Rabs (cD a x (S n)) / cA a x (S (S n))) (1 / 1000000000000000) then true else false) = true ->
      Some (cA a x (S (S n))) = Some v -> exists m, (S n <= m)%nat /\ v = cA a x (S m) /\ Rabs (cD a x m) <= / 1000000000000000 * v /\
      (m = S n \/ exists j, m = S j /\ / 1000000000000000 * cA a x (S j) < Rabs (cD a x j))).
  { intros _ B E. injection E as <-. destruct (Rle_dec _ _) as [L|] in B; [|discriminate]. exists (S n). split; [lia|]. split; [reflexivity|]. split; [|left; reflexivity].
    apply (Rmult_le_compat_r (cA a x (S (S n)))) in L; [|lra]. unfold Rdiv in L. rewrite Rmult_assoc, Rinv_l in L by lra. lra. }
  assert (Go : forall l', 0 < l' -> (if Rle_dec (Rabs (cD a x (S n)) / cA a x (S (S n))) (1 / 1000000000000000) then true else false) = false ->
      lr_cf k (INR n + 1 - a + 1) (x + 2 - a + 2 * INR n + 2) (INR n + 1) (l' * cp a x (S n)) (l' * (x * cq a x (S n))) (l' * cp a x (S (S n))) (l' * (x * cq a x (S (S n)))) (cA a x (S (S n))) = Some v ->
      exists m, (S n <= m)%nat /\ v = cA a x (S m) /\ Rabs (cD a x m) <= / 1000000000000000 * v /\
      (m = S n \/ exists j, m = S j /\ / 1000000000000000 * cA a x (S j) < Rabs (cD a x j))).
  { intros l' Hl' B E. destruct (Rle_dec _ _) as [|L] in B; [discriminate|].
    assert (NS : / 1000000000000000 * cA a x (S (S n)) < Rabs (cD a x (S n))).
    { apply Rnot_le_lt. intros C. apply L. apply Rmult_le_reg_r with (cA a x (S (S n))); [assumption|]. unfold Rdiv. rewrite Rmult_assoc, Rinv_l by lra. lra. }
    destruct (IH (S n) l' v Hl') as (m & Lm & Ev & Em & Cm).
    { rewrite S_INR. replace (INR n + 1 + 1 - a) with (INR n + 1 - a + 1) by ring. replace (x + 2 - a + 2 * (INR n + 1)) with (x + 2 - a + 2 * INR n + 2) by ring. exact E. }
    exists m. split; [lia|]. split; [exact Ev|]. split; [exact Em|]. right. destruct Cm as [->|Cm]; [exists (S n); split; [reflexivity|exact NS]|exact Cm]. }
  destruct (R_ltb lr_big (Rabs (l * cp a x (S (S n))))).
  - destruct (if Rle_dec (Rabs (cD a x (S n)) / cA a x (S (S n))) (1 / 1000000000000000) then true else false) eqn:B; [intros E; exact (Stop None eq_refl E)|].
    intros E. apply (Go (l * lr_big_inv)); [now apply Rmult_lt_0_compat|reflexivity|].
    replace (l * lr_big_inv * cp a x (S n)) with (l * cp a x (S n) * lr_big_inv) by ring.
    replace (l * lr_big_inv * (x * cq a x (S n))) with (l * (x * cq a x (S n)) * lr_big_inv) by ring.
    replace (l * lr_big_inv * cp a x (S (S n))) with (l * cp a x (S (S n)) * lr_big_inv) by ring.
    replace (l * lr_big_inv * (x * cq a x (S (S n)))) with (l * (x * cq a x (S (S n))) * lr_big_inv) by ring. exact E.
  - destruct (if Rle_dec (Rabs (cD a x (S n)) / cA a x (S (S n))) (1 / 1000000000000000) then true else false) eqn:B; [intros E; exact (Stop None eq_refl E)|].
    intros E. exact (Go l Hl eq_refl E).
Qed.
Lemma lr_cf_accuracy a g F x k v : 0 < a -> 1 <= x -> a <= x -> is_glr a g F ->
  lr_cf k (1 - a) (x + (1 - a) + 1) 0 1 x (x + 1) ((x + (1 - a) + 1) * x) ((x + 1) / ((x + (1 - a) + 1) * x)) = Some v ->
  0 < v /\ Rabs (v - cG a g F x) <= 12 / 100000000000000 * v.
Proof.
  intros Ha Hx Hax HF E.
  destruct (lr_cf_run a x k Ha Hx Hax 0 1 v ltac:(lra)) as (m & Lm & Ev & Em & Cm).
  { change (INR 0) with 0. rewrite cp_0, cq_0, cp_1, cq_1. unfold cA. rewrite cp_1, cq_1.
    replace (0 + 1 - a) with (1 - a) by ring. replace (x + 2 - a + 2 * 0) with (x + (1 - a) + 1) by ring. replace (1 * 1) with 1 by ring. rewrite !Rmult_1_l, Rmult_1_r.
    replace (x * (x + 2 - a)) with ((x + (1 - a) + 1) * x) by ring. exact E. }
  pose proof (cA_true a g F x m Ha Hx Hax HF) as T. rewrite <- Ev in T. pose proof (cA_pos a x Ha Hx Hax (S m)) as P. rewrite <- Ev in P.
  split; [exact P|]. apply Rle_trans with (1 := T).
  assert (C : csm x m / x <= 57).
  { destruct Cm as [->|(j & -> & Hj)].
    - pose proof (csm_sq a x Ha Hx Hax 1) as SQ. pose proof (csm_pos a x Ha Hx Hax 1) as S1. change (INR 1) with 1 in SQ.
      assert (csm x 1 <= 2 * x). { apply Rsqr_incr_0; [|lra|lra]. unfold Rsqr. rewrite SQ. nra. }
      apply Rmult_le_reg_r with x; [lra|]. unfold Rdiv. rewrite Rmult_assoc, Rinv_l by lra. lra.
    - pose proof (cf_iter a x Ha Hx Hax j Hj). pose proof (csm_next a x Ha Hx Hax j). lra. }
  apply Rle_trans with (119 * Rabs (cD a x m)).
  - apply Rmult_le_compat_r; [apply Rabs_pos|]. unfold cC. lra.
  - lra.
Qed.
