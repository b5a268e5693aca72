(** Termination of the continued fraction of the incomplete gamma function in exact arithmetic. *)
From Coq Require Import Arith Lia List Bool ZArith Reals Lra.
From Verif Require Import Outcome Scalar RealOps Elem_model Int_model Ode_model Special_model.
From Verif Require Import Discrete_proofs OdeOrder_proofs Special_proofs.
Local Open Scope R_scope.

Section CF.
Variables a x m : R.
Hypothesis Ha : 0 < a.
Hypothesis Hx1 : 1 <= x.
Hypothesis Hxa : a <= x.
Hypothesis Hm : 0 < m.

(** After [k] steps: the denominators grow, the convergents stay above [m] and the last two
    convergents differ by at most [d]. *)
Definition cf_inv (k d p3 q3 p2 q2 : R) : Prop :=
  0 < q3 /\ (k + 1) * q3 <= q2 /\ 0 <= p3 - m * q3 /\ (k + 1) * (p3 - m * q3) <= p2 - m * q2 /\
  Rabs (p2 * q3 - p3 * q2) <= d * (q2 * q3).

Lemma cf_growth k u3 u2 : 0 <= k -> 0 <= u3 -> (k + 1) * u3 <= u2 ->
  (k + 2) * u2 <= u2 * (x + 4 - a + 2 * k) - u3 * ((k + 2 - a) * (k + 1)).
Proof.
  intros Hk H3 H2.
  assert (U : 0 <= u2) by (assert (0 <= (k + 1) * u3) by (apply Rmult_le_pos; lra); lra).
  destruct (Rle_dec 0 (k + 2 - a)) as [P|P].
  - assert ((k + 2 - a) * ((k + 1) * u3) <= (k + 2 - a) * u2) by (apply Rmult_le_compat_l; lra).
    assert (0 <= u2 * x) by (apply Rmult_le_pos; lra). lra.
  - assert (0 <= u3 * ((a - k - 2) * (k + 1))) by (apply Rmult_le_pos; [assumption|apply Rmult_le_pos; lra]).
    assert (0 <= u2 * (x + 2 - a + k)) by (apply Rmult_le_pos; lra). lra.
Qed.

Lemma cf_step k d p3 q3 p2 q2 : 0 <= k -> 0 <= d -> cf_inv k d p3 q3 p2 q2 ->
  let z := x + 4 - a + 2 * k in let yc := (k + 2 - a) * (k + 1) in
  cf_inv (k + 1) (d * (k + 1 + x) / (k + 2 + x)) p2 q2 (p2 * z - p3 * yc) (q2 * z - q3 * yc).
Proof.
  intros Hk Hd [Q3 [Q2 [R3 [R2 D]]]] z yc.
  assert (P2 : 0 < q2) by (assert (0 < (k + 1) * q3) by (apply Rmult_lt_0_compat; lra); lra).
  assert (G := cf_growth k q3 q2 Hk ltac:(lra) Q2). fold z yc in G.
  assert (GR := cf_growth k (p3 - m * q3) (p2 - m * q2) Hk R3 R2). fold z yc in GR.
  split; [assumption|]. split; [lra|]. split.
  { assert (0 <= (k + 1) * (p3 - m * q3)) by (apply Rmult_le_pos; lra). lra. }
  split; [lra|].
  replace ((p2 * z - p3 * yc) * q2 - p2 * (q2 * z - q3 * yc)) with (yc * (p2 * q3 - p3 * q2)) by ring.
  set (q := q2 * z - q3 * yc) in *.
  assert (Pq : 0 < q). { assert (0 < (k + 2) * q2) by (apply Rmult_lt_0_compat; lra). lra. }
  rewrite Rabs_mult. apply Rle_trans with (Rabs yc * (d * (q2 * q3))).
  { apply Rmult_le_compat_l; [apply Rabs_pos|assumption]. }
  (* |yc| q3 (k+2+x) <= (k+1+x) q *)
  assert (K : Rabs yc * q3 * (k + 2 + x) <= (k + 1 + x) * q).
  { assert (T : (k + 1) * q3 <= q2) by assumption.
    destruct (Rle_dec 0 (k + 2 - a)) as [P|P].
    - assert (Y : 0 <= yc) by (apply Rmult_le_pos; lra). rewrite Rabs_right by lra.
      assert (A1 : (k + 2 - a) * ((k + 1) * q3) <= (k + 2 - a) * q2) by (apply Rmult_le_compat_l; lra).
      assert (A2 : q2 * (k + 2 + x) <= q) by (unfold q, z, yc; lra).
      assert (A3 : yc * q3 <= (k + 2 - a) * q2) by (unfold yc; lra).
      apply Rle_trans with ((k + 2 - a) * q2 * (k + 2 + x)); [apply Rmult_le_compat_r; lra|].
      apply Rle_trans with ((k + 2 - a) * q).
      + rewrite Rmult_assoc. apply Rmult_le_compat_l; lra.
      + apply Rmult_le_compat_r; lra.
    - assert (Y : yc < 0).
      { unfold yc. rewrite <- (Rmult_0_l (k + 1)). apply Rmult_lt_compat_r; lra. }
      rewrite Rabs_left by assumption. set (t := - yc * q3).
      assert (T0 : 0 <= t) by (apply Rmult_le_pos; lra).
      assert (T1 : t <= (a - k - 2) * q2).
      { unfold t, yc. apply Rle_trans with ((a - k - 2) * ((k + 1) * q3)); [lra|].
        apply Rmult_le_compat_l; lra. }
      assert (Z : 0 <= z) by (unfold z; lra).
      assert (T2 : t * z <= (a - k - 2) * q2 * z) by (apply Rmult_le_compat_r; assumption).
      assert (T3 : t * (k + 2 + x) <= (a - k - 2) * q).
      { replace q with (q2 * z + t) by (unfold q, t; ring). unfold z in *. lra. }
      apply Rle_trans with (1 := T3). apply Rmult_le_compat_r; lra. }
  apply Rmult_le_reg_r with (k + 2 + x); [lra|].
  replace (d * (k + 1 + x) / (k + 2 + x) * (q * q2) * (k + 2 + x)) with (d * q2 * ((k + 1 + x) * q)) by (field; lra).
  replace (Rabs yc * (d * (q2 * q3)) * (k + 2 + x)) with (d * q2 * (Rabs yc * q3 * (k + 2 + x))) by ring.
  apply Rmult_le_compat_l; [|assumption]. apply Rmult_le_pos; lra.
Qed.

Lemma cf_inv_scale k d p3 q3 p2 q2 c : 0 < c -> cf_inv k d p3 q3 p2 q2 ->
  cf_inv k d (p3 * c) (q3 * c) (p2 * c) (q2 * c).
Proof.
  intros Hc [Q3 [Q2 [R3 [R2 D]]]].
  split; [apply Rmult_lt_0_compat; assumption|]. split.
  { rewrite <- Rmult_assoc. apply Rmult_le_compat_r; lra. } split.
  { replace (p3 * c - m * (q3 * c)) with ((p3 - m * q3) * c) by ring. apply Rmult_le_pos; lra. } split.
  { replace (p3 * c - m * (q3 * c)) with ((p3 - m * q3) * c) by ring.
    replace (p2 * c - m * (q2 * c)) with ((p2 - m * q2) * c) by ring.
    rewrite <- Rmult_assoc. apply Rmult_le_compat_r; lra. }
  replace (p2 * c * (q3 * c) - p3 * c * (q2 * c)) with ((c * c) * (p2 * q3 - p3 * q2)) by ring.
  rewrite Rabs_mult. rewrite (Rabs_right (c * c)) by (apply Rle_ge, Rlt_le, Rmult_lt_0_compat; assumption).
  replace (d * (q2 * c * (q3 * c))) with ((c * c) * (d * (q2 * q3))) by ring.
  apply Rmult_le_compat_l; [|assumption]. left. apply Rmult_lt_0_compat; assumption.
Qed.

Lemma lr_cf_term N : forall k d p3 q3 p2 q2,
  0 <= k -> 0 <= d -> cf_inv k d p3 q3 p2 q2 ->
  d * (k + 1 + x) <= lr_eps * m * (k + 1 + INR N + x + 1) ->
  exists v, lr_cf (S N) (k + 1 - a) (x + 2 - a + 2 * k) k p3 q3 p2 q2 (p2 / q2) = Some v /\ m <= v.
Proof.
  assert (EP : 0 < lr_eps) by (rewrite lr_eps_R; lra).
  induction N as [|N IH]; intros k d p3 q3 p2 q2 Hk Hd I B; [|remember (S N) as M eqn:EM]; cbn [lr_cf]; rb; rops; rewrite !lit_2;
    pose proof (cf_step k d p3 q3 p2 q2 Hk Hd I) as J; cbv zeta in J;
    replace (x + 2 - a + 2 * k + 2) with (x + 4 - a + 2 * k) by ring;
    replace (k + 1 - a + 1) with (k + 2 - a) by ring;
    set (p := p2 * (x + 4 - a + 2 * k) - p3 * ((k + 2 - a) * (k + 1))) in *;
    set (q := q2 * (x + 4 - a + 2 * k) - q3 * ((k + 2 - a) * (k + 1))) in *;
    set (d' := d * (k + 1 + x) / (k + 2 + x)) in *;
    pose proof J as [Q2 [Q [R2 [R' D]]]];
    assert (Pq : 0 < q) by (assert (0 < (k + 1 + 1) * q2) by (apply Rmult_lt_0_compat; lra); lra);
    assert (Pp : 0 < p - m * q + m * q) by
      (assert (0 <= (k + 1 + 1) * (p2 - m * q2)) by (apply Rmult_le_pos; lra);
       assert (0 < m * q) by (apply Rmult_lt_0_compat; assumption); lra);
    assert (Mq : m * q <= p) by (assert (0 <= (k + 1 + 1) * (p2 - m * q2)) by (apply Rmult_le_pos; lra); lra);
    assert (V : m <= p / q) by (apply Rmult_le_reg_r with q; [assumption|]; unfold Rdiv; rewrite Rmult_assoc, Rinv_l; lra);
    assert (ERR : Rabs ((p2 / q2 - p / q) / (p / q)) <= d' / m) by
     (replace ((p2 / q2 - p / q) / (p / q)) with ((p * q2 - p2 * q) * (- / (q2 * p))) by (field; repeat split; lra);
      rewrite Rabs_mult, Rabs_Ropp, (Rabs_right (/ (q2 * p))) by (apply Rle_ge, Rlt_le, Rinv_0_lt_compat, Rmult_lt_0_compat; lra);
      apply Rle_trans with (d' * (q * q2) * / (q2 * p));
      [apply Rmult_le_compat_r; [apply Rlt_le, Rinv_0_lt_compat, Rmult_lt_0_compat; lra|exact D]|];
      assert (D0 : 0 <= d') by (unfold d'; apply Rmult_le_pos; [apply Rmult_le_pos; lra|apply Rlt_le, Rinv_0_lt_compat; lra]);
      replace (d' * (q * q2) * / (q2 * p)) with (d' * (q / p)) by (field; lra);
      apply Rmult_le_compat_l; [assumption|];
      apply Rmult_le_reg_r with (p * m); [apply Rmult_lt_0_compat; lra|];
      replace (q / p * (p * m)) with (m * q) by (field; lra);
      replace (/ m * (p * m)) with p by (field; lra); assumption).
  - assert (ST : d' / m <= lr_eps).
    { apply Rmult_le_reg_r with (m * (k + 2 + x)); [apply Rmult_lt_0_compat; lra|].
      unfold d'. replace (d * (k + 1 + x) / (k + 2 + x) / m * (m * (k + 2 + x))) with (d * (k + 1 + x)) by (field; lra).
      cbn [INR] in B. lra. }
    destruct (R_ltb lr_big (Rabs p)); (replace (R_eqb q 0) with false by (symmetry; apply R_eqb_false; lra));
      cbn [negb]; (replace (R_leb (Rabs ((p2 / q2 - p / q) / (p / q))) lr_eps) with true by (symmetry; apply R_leb_true; lra));
      (exists (p / q); split; [reflexivity|exact V]).
  - assert (BI : 0 < lr_big_inv) by (unfold lr_big_inv; rewrite lit_R; lra).
    assert (D0 : 0 <= d') by (unfold d'; apply Rmult_le_pos; [apply Rmult_le_pos; lra|apply Rlt_le, Rinv_0_lt_compat; lra]).
    assert (B' : d' * (k + 1 + 1 + x) <= lr_eps * m * (k + 1 + 1 + INR N + x + 1)).
    { unfold d'. replace (d * (k + 1 + x) / (k + 2 + x) * (k + 1 + 1 + x)) with (d * (k + 1 + x)) by (field; lra).
      subst M. rewrite S_INR in B. lra. }
    replace (R_eqb q 0) with false by (symmetry; apply R_eqb_false; lra). cbn [negb].
    destruct (R_ltb lr_big (Rabs p)); destruct (R_leb (Rabs ((p2 / q2 - p / q) / (p / q))) lr_eps);
      [exists (p / q); split; [reflexivity|exact V]| |exists (p / q); split; [reflexivity|exact V]|].
    + destruct (IH (k + 1) d' (p2 * lr_big_inv) (q2 * lr_big_inv) (p * lr_big_inv) (q * lr_big_inv)) as [v E];
        [lra|assumption|apply cf_inv_scale; assumption|exact B'|].
      replace (p * lr_big_inv / (q * lr_big_inv)) with (p / q) in E by (field; split; lra).
      replace (k + 1 + 1 - a) with (k + 2 - a) in E by ring.
      replace (x + 2 - a + 2 * (k + 1)) with (x + 4 - a + 2 * k) in E by ring. exists v. subst M. exact E.
    + destruct (IH (k + 1) d' p2 q2 p q) as [w F]; [lra|assumption|exact J|exact B'|].
      replace (k + 1 + 1 - a) with (k + 2 - a) in F by ring.
      replace (x + 2 - a + 2 * (k + 1)) with (x + 4 - a + 2 * k) in F by ring. exists w. subst M. exact F.
Qed.
End CF.

(** The continued fraction terminates and its value has the classical lower bound. *)
Definition cf_low (a x : R) : R := if Rle_dec 1 a then / x else / (x + 1 - a).
Lemma lr_cf_total a x : 0 < a -> 1 <= x -> a <= x -> exists k v,
  lr_cf k (1 - a) (x + (1 - a) + 1) 0 1 x (x + 1) ((x + (1 - a) + 1) * x) ((x + 1) / ((x + (1 - a) + 1) * x)) = Some v
  /\ cf_low a x <= v.
Proof.
  intros Ha Hx Hxa. set (m := cf_low a x).
  assert (Pm : 0 < m) by (unfold m, cf_low; destruct (Rle_dec 1 a); apply Rinv_0_lt_compat; lra).
  assert (EP : 0 < lr_eps) by (rewrite lr_eps_R; lra).
  set (z := x + (1 - a) + 1).
  set (d := Rabs ((x + 1) * x - 1 * (z * x)) / (z * x * x)).
  assert (Z : 2 <= z) by (unfold z; lra).
  assert (Pz : 0 < z * x * x) by (apply Rmult_lt_0_compat; [apply Rmult_lt_0_compat|]; lra).
  assert (D0 : 0 <= d) by (apply Rmult_le_pos; [apply Rabs_pos|apply Rlt_le, Rinv_0_lt_compat; assumption]).
  assert (I : cf_inv m 0 d 1 x (x + 1) (z * x)).
  { split; [lra|]. split.
    { rewrite Rplus_0_l. apply Rmult_le_compat_r; lra. }
    assert (C : (1 <= a /\ m = / x) \/ (a < 1 /\ m = / (x + 1 - a))).
    { unfold m, cf_low. destruct (Rle_dec 1 a); [left|right]; split; lra. }
    split; [|split].
    - destruct C as [[C ->]|[C ->]].
      + replace (1 - / x * x) with 0 by (field; lra). lra.
      + replace (1 - / (x + 1 - a) * x) with ((1 - a) / (x + 1 - a)) by (field; lra).
        apply Rmult_le_pos; [lra|apply Rlt_le, Rinv_0_lt_compat; lra].
    - destruct C as [[C ->]|[C ->]].
      + replace (1 - / x * x) with 0 by (field; lra).
        replace (x + 1 - / x * (z * x)) with (a - 1) by (unfold z; field; lra). lra.
      + right. unfold z. field. lra.
    - unfold d. right. replace (z * x * x) with (z * x * x) by ring. field. split; lra. }
  destruct (archimed (d * (1 + x) / (lr_eps * m))) as [A _].
  set (N := Z.to_nat (Z.max 0 (up (d * (1 + x) / (lr_eps * m))))).
  assert (EM : 0 < lr_eps * m) by (apply Rmult_lt_0_compat; assumption).
  assert (B : d * (0 + 1 + x) <= lr_eps * m * (0 + 1 + INR N + x + 1)).
  { assert (L : d * (1 + x) / (lr_eps * m) <= INR N).
    { unfold N. rewrite INR_IZR_INZ, Z2Nat.id by lia.
      assert (IZR (up (d * (1 + x) / (lr_eps * m))) <= IZR (Z.max 0 (up (d * (1 + x) / (lr_eps * m))))) by (apply IZR_le; lia). lra. }
    apply (Rmult_le_compat_l (lr_eps * m)) in L; [|lra].
    replace (lr_eps * m * (d * (1 + x) / (lr_eps * m))) with (d * (1 + x)) in L by (field; split; lra).
    assert (0 <= lr_eps * m * (2 + x)) by (apply Rmult_le_pos; lra). lra. }
  destruct (lr_cf_term a x m Ha Hx Hxa Pm N 0 d 1 x (x + 1) (z * x) ltac:(lra) D0 I B) as [v E].
  exists (S N), v. replace (0 + 1 - a) with (1 - a) in E by ring.
  replace (x + 2 - a + 2 * 0) with z in E by (unfold z; ring). exact E.
Qed.

(** [gamma_lr] terminates for all positive arguments. *)
Lemma sgamma_lr_term a x : 0 < a -> 0 < x -> exists k v, sgamma_lr k a x = Ret (Some v).
Proof.
  intros Ha Hx. destruct (Rle_dec x 1) as [L|L].
  { destruct (sgamma_lr_small_term a x Ha Hx (or_introl L)) as [k [v [E _]]]. eauto. }
  destruct (Rle_dec x a) as [L'|L'].
  { destruct (sgamma_lr_small_term a x Ha Hx (or_intror L')) as [k [v [E _]]]. eauto. }
  destruct (lr_cf_total a x Ha ltac:(lra) ltac:(lra)) as [k [v [E _]]]. exists k.
  unfold sgamma_lr. rb. rops.
  unfold R_leb at 1. destruct (Rle_dec x 0); [lra|].
  unfold R_eqb. destruct (Req_EM_T a 0); [lra|]. destruct (Req_EM_T x 0); [lra|].
  match goal with |- context [R_ltb ?u ?v] => destruct (R_ltb u v) end.
  - destruct (R_ltb a x); eauto.
  - replace (R_leb x 1 || R_leb x a)%bool with false.
    + rewrite E. eauto.
    + symmetry. apply orb_false_iff. rewrite !R_leb_false. lra.
Qed.
Lemma serf_total x : exists k v, serf k x = Ret (Some v).
Proof.
  destruct (Req_dec x 0) as [->|N]; [exists 0%nat, 0; apply serf_0|].
  assert (P : 0 < x * x) by (apply Rlt_0_sqr; assumption).
  destruct (sgamma_lr_term (1 / 2) (x * x) ltac:(lra) P) as [k [v E]].
  exists k. unfold serf. rb. rops. unfold R_eqb. destruct (Req_EM_T x 0); [contradiction|].
  rewrite lit_half'. unfold sgamma_u, sgamma_ur. rewrite E. cbn [obind]. rewrite sgamma_ge by lra. cbn [olift obind]. eauto.
Qed.
(** For x > 1 and 0 < a <= x the regularised lower function stays below 1. *)
Lemma sgamma_lr_lt1 k a x v : 0 < a -> 1 < x -> a < x -> sgamma_lr k a x = Ret (Some v) -> v <= 1.
Proof.
  intros Ha Hx Hxa E. destruct (lr_cf_total a x Ha ltac:(lra) ltac:(lra)) as [k' [w [E' Lw]]].
  pose proof (sgamma_lr_fuel _ k' _ _ _ E) as F. revert F. unfold sgamma_lr. rb. rops.
  unfold R_leb at 1. destruct (Rle_dec x 0); [lra|].
  unfold R_eqb. destruct (Req_EM_T a 0); [lra|]. destruct (Req_EM_T x 0); [lra|].
  match goal with |- context [R_ltb ?u ?v] => destruct (R_ltb u v) end.
  - destruct (R_ltb a x); intros F; apply Ret_inj in F; injection F as <-; lra.
  - replace (R_leb x 1 || R_leb x a)%bool with false by (symmetry; apply orb_false_iff; rewrite !R_leb_false; lra).
    rewrite Nat.add_comm. rewrite (lr_cf_fuel _ k _ _ _ _ _ _ _ _ _ E'). intros F. apply Ret_inj in F.
    assert (F' : 1 - exp (a * ln x - x - sln_gamma a) * w = v) by congruence.
    assert (0 < cf_low a x) by (unfold cf_low; destruct (Rle_dec 1 a); apply Rinv_0_lt_compat; lra).
    assert (0 <= exp (a * ln x - x - sln_gamma a) * w) by (apply Rmult_le_pos; [left; apply exp_pos|lra]). lra.
Qed.
