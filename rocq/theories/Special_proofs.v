(** Special functions over exact reals. *)
From Coq Require Import Arith Lia List Bool ZArith Reals Lra.
From Verif Require Import Outcome Scalar RealOps Elem_model Int_model Ode_model Special_model.
From Verif Require Import Discrete_proofs OdeOrder_proofs.
Import ListNotations.
Local Open Scope R_scope.

Lemma Ret_inj {A} (a b : A) : Ret a = Ret b -> a = b. Proof. congruence. Qed.
Lemma lit_half' : lit 1 2 = 1 / 2. Proof. rewrite lit_R. reflexivity. Qed.

(** ** Gamma function *)

(** The numerator of the Lanczos sum over the common denominator z (z+1) ... (z+7). *)
Definition lz_num (z : R) : R := ((((((((99999999999980993000000 * z + 5245833333334355445450276) * z + 120383420138864624494412956) * z + 1578488045669745218679155700) * z + 12934725852873055338469311460) * z + 67828970150233406162491609224) * z + 222288041949364154006002548704) * z + 416238789122556677013343057920) * z + 340966265533430090400000000000) / 100000000000000000000000.
Lemma lanczos_sum_num z : 0 < z ->
  lanczos_sum z = lz_num z / (z * (z + 1) * (z + 2) * (z + 3) * (z + 4) * (z + 5) * (z + 6) * (z + 7)).
Proof.
  intros H. unfold lanczos_sum, lz_num. rewrite !lit_R. rops. field. repeat split; lra.
Qed.
Lemma lz_num_pos z : 0 < z -> 0 < lz_num z.
Proof.
  intros H. unfold lz_num. apply Rdiv_lt_0_compat; [|lra].
  repeat (apply Rplus_lt_0_compat; [apply Rmult_lt_0_compat; [|assumption]|lra]). lra.
Qed.
Lemma lanczos_sum_pos z : 0 < z -> 0 < lanczos_sum z.
Proof.
  intros H. rewrite lanczos_sum_num by assumption. apply Rdiv_lt_0_compat; [apply lz_num_pos; assumption|].
  repeat (apply Rmult_lt_0_compat; [|lra]). assumption.
Qed.
Lemma lanczos_pos z : 0 < z -> 0 < lanczos z.
Proof.
  intros H. unfold lanczos. apply Rmult_lt_0_compat; [|apply lanczos_sum_pos; assumption].
  rewrite !lit_R. rops. apply Rmult_lt_0_compat; [|apply exp_pos].
  apply Rmult_lt_0_compat.
  - apply Rmult_lt_0_compat; apply sqrt_lt_R0; [lra|apply PI_RGT_0].
  - rewrite R_pow_pos by lra. apply exp_pos.
Qed.

Lemma sgamma_zero : sgamma 0 = Panic.
Proof. unfold sgamma, gamma_step at 1. rb. rops. unfold R_eqb. destruct (Req_EM_T 0 0); [reflexivity|lra]. Qed.
Lemma sgamma_ge z : 1 / 2 <= z -> sgamma z = Ret (lanczos z).
Proof.
  intros H. unfold sgamma, gamma_step at 1. rb. rewrite lit_half'. rops. repeat rcase; try lra. reflexivity.
Qed.
Lemma sgamma_lt z : z < 1 / 2 -> z <> 0 -> sgamma z = Ret (PI / (sin (PI * z) * lanczos (1 - z))).
Proof.
  intros H N. unfold sgamma, gamma_step at 1. rb. rewrite lit_half'. rops.
  unfold R_eqb. destruct (Req_EM_T z 0); [contradiction|].
  unfold R_ltb. destruct (Rlt_dec z (1 / 2)); [|lra].
  unfold gamma_step. rb. rewrite lit_half'. rops. repeat rcase; try lra. reflexivity.
Qed.
(** [sgamma] solves the recursion equation of the source. *)
Lemma gamma_unfold z : sgamma z = gamma_step sgamma z.
Proof.
  unfold gamma_step. rb. rewrite lit_half'. rops. unfold R_eqb. destruct (Req_EM_T z 0) as [->|N]; [apply sgamma_zero|].
  unfold R_ltb. destruct (Rlt_dec z (1 / 2)).
  - rewrite sgamma_lt by lra. rewrite sgamma_ge by lra. reflexivity.
  - rewrite sgamma_ge by lra. reflexivity.
Qed.
Lemma sin_PI_pos z : 0 < z < 1 -> 0 < sin (PI * z).
Proof.
  intros H. pose proof PI_RGT_0. apply sin_gt_0.
  - apply Rmult_lt_0_compat; lra.
  - rewrite <- (Rmult_1_r PI) at 2. apply Rmult_lt_compat_l; lra.
Qed.
Lemma sgamma_pos z : 0 < z -> exists g, sgamma z = Ret g /\ 0 < g.
Proof.
  intros H. destruct (Rlt_dec z (1 / 2)).
  - eexists. split; [apply sgamma_lt; lra|]. apply Rdiv_lt_0_compat; [apply PI_RGT_0|].
    apply Rmult_lt_0_compat; [apply sin_PI_pos; lra|apply lanczos_pos; lra].
  - exists (lanczos z). split; [apply sgamma_ge; lra|apply lanczos_pos; assumption].
Qed.
Lemma sgamma_ret z g : 0 < z -> sgamma z = Ret g -> 0 < g.
Proof. intros H E. destruct (sgamma_pos z H) as [g' [E' P]]. congruence. Qed.

(** Euler's reflection formula; at 1/2 it fails by the error of the approximation. *)
Lemma sgamma_reflection z g g' : sin (PI * z) <> 0 -> z <> 1 / 2 ->
  sgamma z = Ret g -> sgamma (1 - z) = Ret g' -> g * g' = PI / sin (PI * z).
Proof.
  intros S N E E'. destruct (Rlt_dec z (1 / 2)).
  - assert (z <> 0). { intros ->. rewrite sgamma_zero in E. discriminate. }
    rewrite sgamma_lt in E by assumption. rewrite sgamma_ge in E' by lra.
    apply Ret_inj in E. apply Ret_inj in E'. subst g g'. pose proof (lanczos_pos (1 - z) ltac:(lra)). field. split; first [assumption|lra].
  - assert (1 - z <> 0). { intros Z. apply S. replace z with 1 by lra. rewrite Rmult_1_r. apply sin_PI. }
    rewrite sgamma_ge in E by lra. rewrite sgamma_lt in E' by lra.
    apply Ret_inj in E. apply Ret_inj in E'. subst g g'. replace (1 - (1 - z)) with z by ring.
    replace (PI * (1 - z)) with (PI - PI * z) by ring. rewrite sin_PI_x. pose proof (lanczos_pos z ltac:(lra)). field. split; first [assumption|lra].
Qed.

(** ** Digamma *)
Lemma digamma_loop_shift fuel : forall v w x,
  digamma_loop fuel (v + w) x = match digamma_loop fuel v x with
                                | Some (a, y) => Some (a + w, y) | None => None end.
Proof.
  induction fuel as [|n IH]; intros v w x; cbn [digamma_loop].
  - destruct (ltb x (lit 17 2)); reflexivity.
  - destruct (ltb x (lit 17 2)); [|reflexivity]. rops.
    replace (v + w - 1 / x) with ((v - 1 / x) + w) by ring. apply IH.
Qed.
Lemma digamma_tail_shift v w x : digamma_tail (v + w) x = digamma_tail v x + w.
Proof. unfold digamma_tail. rops. ring. Qed.
Lemma sdigamma_rec fuel x : x < 17 / 2 ->
  sdigamma (S fuel) x = match sdigamma fuel (x + 1) with Some v => Some (v - 1 / x) | None => None end.
Proof.
  intros H. unfold sdigamma. cbn [digamma_loop]. rb. rewrite lit_R. rcase; [|exfalso; lra]. rops.
  replace (0 - 1 / x) with (0 + (- (1 / x))) by ring. rewrite digamma_loop_shift.
  destruct (digamma_loop fuel 0 (x + 1)) as [[a y]|]; [|reflexivity].
  f_equal. rewrite digamma_tail_shift. ring.
Qed.
Lemma digamma_loop_term fuel : forall v x, 17 / 2 <= x + INR fuel -> exists r, digamma_loop fuel v x = Some r.
Proof.
  induction fuel as [|n IH]; intros v x H; cbn [digamma_loop]; rb; rewrite lit_R; rcase; eauto.
  - cbn [INR] in H. lra.
  - apply IH. rewrite S_INR in H. rops. lra.
Qed.
Lemma digamma_loop_fuel fuel : forall k (v x : R) r, digamma_loop fuel v x = Some r -> digamma_loop (fuel + k) v x = Some r.
Proof.
  induction fuel as [|n IH]; intros k v x r; cbn [digamma_loop Nat.add].
  - destruct (ltb x (lit 17 2)) eqn:E; [discriminate|]. intros H. destruct k; cbn [digamma_loop]; rewrite E; exact H.
  - destruct (ltb x (lit 17 2)); [apply IH|auto].
Qed.
Lemma sdigamma_term x : exists fuel v, sdigamma fuel x = Some v.
Proof.
  set (n := Z.to_nat (Z.max 0 (up (17 / 2 - x)))). exists n.
  destruct (digamma_loop_term n 0 x) as [[a y] E].
  - destruct (archimed (17 / 2 - x)) as [A _]. unfold n. rewrite INR_IZR_INZ, Z2Nat.id by lia.
    assert (IZR (up (17 / 2 - x)) <= IZR (Z.max 0 (up (17 / 2 - x)))) by (apply IZR_le; lia). lra.
  - unfold sdigamma. rops. rewrite E. eauto.
Qed.
Lemma sdigamma_fuel fuel k (x v : R) : sdigamma fuel x = Some v -> sdigamma (fuel + k) x = Some v.
Proof.
  unfold sdigamma. destruct (digamma_loop fuel zero x) as [r|] eqn:E; [|discriminate].
  intros H. rewrite (digamma_loop_fuel _ k _ _ _ E). exact H.
Qed.

(** ** Incomplete gamma functions *)
Lemma sgamma_lu fuel a x v w g :
  sgamma_l fuel a x = Ret (Some v) -> sgamma_u fuel a x = Ret (Some w) -> sgamma a = Ret g -> v + w = g.
Proof.
  unfold sgamma_l, sgamma_u, sgamma_ur. intros L U G. rewrite G in *. cbn [olift obind] in *.
  destruct (sgamma_lr fuel a x) as [[r|]|]; cbn [obind] in *; try discriminate.
  injection L as <-. injection U as <-. rops. ring.
Qed.
Lemma sgamma_lr_ur fuel a x v w :
  sgamma_lr fuel a x = Ret (Some v) -> sgamma_ur fuel a x = Ret (Some w) -> v + w = 1.
Proof. unfold sgamma_ur. intros ->. cbn [obind]. intros E. injection E as <-. rops. ring. Qed.

(** Termination of the power series in exact arithmetic. *)
Lemma lr_eps_R : lr_eps = 1 / 1000000000000000.
Proof. unfold lr_eps. rewrite lit_R. reflexivity. Qed.
Lemma lr_series_term x : 0 < x -> forall k r c s, 0 < r -> 0 < c -> c <= s -> 0 < s ->
  2 * x <= r -> c <= s * lr_eps * 2 ^ k -> exists v, lr_series (S k) x r c s = Some v.
Proof.
  intros Hx. induction k as [|k IH]; intros r c s Hr Hc Hcs Hs H2 Hk; cbn [lr_series]; rb; rops.
  - set (c' := c * (x / (r + 1))). assert (C : 0 < c' <= c / 2).
    { assert (0 < x / (r + 1)) by (apply Rdiv_lt_0_compat; lra).
      assert (x / (r + 1) <= 1 / 2). { apply Rmult_le_reg_r with (r + 1); [lra|]. field_simplify; lra. }
      unfold c'. split; [apply Rmult_lt_0_compat; assumption|].
      apply Rle_trans with (c * (1 / 2)); [apply Rmult_le_compat_l; lra|lra]. }
    rcase; [eauto|]. exfalso. apply n. apply Rmult_le_reg_r with (s + c'); [lra|].
    replace (c' / (s + c') * (s + c')) with c' by (field; lra). rewrite lr_eps_R in *. cbn [pow] in Hk. lra.
  - set (c' := c * (x / (r + 1))). assert (C : 0 < c' <= c / 2).
    { assert (0 < x / (r + 1)) by (apply Rdiv_lt_0_compat; lra).
      assert (x / (r + 1) <= 1 / 2). { apply Rmult_le_reg_r with (r + 1); [lra|]. field_simplify; lra. }
      unfold c'. split; [apply Rmult_lt_0_compat; assumption|].
      apply Rle_trans with (c * (1 / 2)); [apply Rmult_le_compat_l; lra|lra]. }
    rcase; [eauto|]. apply IH; try lra.
    cbn [pow] in Hk. assert (0 < lr_eps * 2 ^ k).
    { rewrite lr_eps_R. apply Rmult_lt_0_compat; [lra|]. apply pow_lt. lra. }
    assert (0 <= c' * (lr_eps * 2 ^ k)) by (apply Rmult_le_pos; lra). lra.
Qed.
Lemma lr_series_warm x : 0 < x -> forall n r c s, 0 < r -> 0 < c -> c <= s -> 0 < s ->
  2 * x <= r + INR n -> exists k v, lr_series k x r c s = Some v.
Proof.
  intros Hx. induction n as [|n IH]; intros r c s Hr Hc Hcs Hs H2.
  - cbn [INR] in H2. destruct (Pow_x_infinity 2 ltac:(rewrite Rabs_right; lra) (1000000000000000)) as [N HN].
    specialize (HN N (le_n N)). rewrite Rabs_right in HN by (apply Rle_ge, pow_le; lra).
    destruct (lr_series_term x Hx N r c s) as [v E]; try lra; eauto.
    rewrite lr_eps_R. assert (1 <= 1 / 1000000000000000 * 2 ^ N) by lra.
    assert (s * 1 <= s * (1 / 1000000000000000 * 2 ^ N)) by (apply Rmult_le_compat_l; lra). lra.
  - rewrite S_INR in H2. set (r' := r + 1). set (c' := c * (x / r')). set (s' := s + c').
    assert (0 < c').
    { unfold c', r'. apply Rmult_lt_0_compat; [assumption|]. apply Rdiv_lt_0_compat; lra. }
    destruct (IH r' c' s') as [k [v E]]; unfold r', s' in *; try lra.
    destruct (R_leb (c' / (s + c')) lr_eps) eqn:B.
    + exists 1%nat, (s + c'). cbn [lr_series]. rb. rops. fold c'. rewrite B. reflexivity.
    + exists (S k), v. cbn [lr_series]. rb. rops. fold c'. rewrite B. exact E.
Qed.
Lemma lr_series_total a x : 0 < a -> 0 < x -> exists k v, lr_series k x a 1 1 = Some v.
Proof.
  intros Ha Hx. destruct (archimed (2 * x)) as [A _].
  apply (lr_series_warm x Hx (Z.to_nat (Z.max 0 (up (2 * x))))); try lra.
  rewrite INR_IZR_INZ, Z2Nat.id by lia.
  assert (IZR (up (2 * x)) <= IZR (Z.max 0 (up (2 * x)))) by (apply IZR_le; lia). lra.
Qed.
(** More fuel does not change a result. *)
Lemma lr_series_fuel k : forall m (x r c s v : R), lr_series k x r c s = Some v -> lr_series (k + m) x r c s = Some v.
Proof.
  induction k as [|k IH]; intros m x r c s v; cbn [lr_series Nat.add]; [discriminate|].
  destruct (leb _ lr_eps); [auto|apply IH].
Qed.
Lemma lr_cf_fuel k : forall m (y z c p3 q3 p2 q2 a v : R),
  lr_cf k y z c p3 q3 p2 q2 a = Some v -> lr_cf (k + m) y z c p3 q3 p2 q2 a = Some v.
Proof.
  induction k as [|k IH]; intros m y z c p3 q3 p2 q2 a v; cbn [lr_cf Nat.add]; [discriminate|].
  destruct (ltb lr_big _); (destruct (negb _); [destruct (leb _ lr_eps); [auto|apply IH]|apply IH]).
Qed.
Lemma sgamma_lr_fuel k m (a x v : R) : sgamma_lr k a x = Ret (Some v) -> sgamma_lr (k + m) a x = Ret (Some v).
Proof.
  unfold sgamma_lr. destruct (leb x zero); [discriminate|]. destruct (eqb a zero); [auto|].
  destruct (eqb x zero); [auto|]. destruct (ltb _ _); [auto|]. destruct (leb x one || leb x a).
  - destruct (lr_series k _ _ _ _) as [w|] eqn:E; [|discriminate]. rewrite (lr_series_fuel _ m _ _ _ _ _ E). auto.
  - destruct (lr_cf k _ _ _ _ _ _ _ _) as [w|] eqn:E; [|discriminate]. rewrite (lr_cf_fuel _ m _ _ _ _ _ _ _ _ _ E). auto.
Qed.
(** For x up to max(1, a) the function terminates and is positive where the power series is used. *)
Lemma sgamma_lr_small_term a x : 0 < a -> 0 < x -> (x <= 1 \/ x <= a) ->
  exists k v, sgamma_lr k a x = Ret (Some v) /\ 0 <= v.
Proof.
  intros Ha Hx S. destruct (lr_series_total a x Ha Hx) as [k [w E]].
  assert (W : forall k x r c s w, 0 < x -> 0 < r -> 0 < c -> 0 < s -> lr_series k x r c s = Some w -> 0 < w).
  { clear. induction k as [|k IH]; intros x r c s w Hx Hr Hc Hs; cbn [lr_series]; [discriminate|]. rops.
    assert (0 < c * (x / (r + 1))) by (apply Rmult_lt_0_compat; [assumption|apply Rdiv_lt_0_compat; lra]).
    destruct (leb _ lr_eps); [intros Q; injection Q as <-; lra|]. apply IH; lra. }
  specialize (W k x a 1 1 w Hx Ha ltac:(lra) ltac:(lra) E).
  exists k. unfold sgamma_lr. rb. rops.
  unfold R_leb at 1. destruct (Rle_dec x 0); [lra|].
  unfold R_eqb. destruct (Req_EM_T a 0); [lra|]. destruct (Req_EM_T x 0); [lra|].
  match goal with |- context [R_ltb ?u ?v] => destruct (R_ltb u v) end.
  - destruct (R_ltb a x); eexists; (split; [reflexivity|lra]).
  - replace (R_leb x 1 || R_leb x a)%bool with true.
    + rewrite E. eexists. split; [reflexivity|]. apply Rlt_le, Rdiv_lt_0_compat; [|assumption].
      apply Rmult_lt_0_compat; [apply exp_pos|assumption].
    + symmetry. apply orb_true_iff. rewrite !R_leb_true. assumption.
Qed.

(** ** Error function *)
Lemma fsign_opp x : x <> 0 -> fsign (- x) = - fsign x.
Proof.
  intros H. unfold fsign. rb. rops. repeat rcase; lra.
Qed.
Lemma serf_odd fuel x v : serf fuel x = Ret (Some v) -> serf fuel (- x) = Ret (Some (- v)).
Proof.
  unfold serf. rb. rops. unfold R_eqb. destruct (Req_EM_T x 0) as [->|N].
  - intros E. injection E as <-. destruct (Req_EM_T (-0) 0); [reflexivity|lra].
  - destruct (Req_EM_T (- x) 0); [lra|]. replace (- x * - x) with (x * x) by ring.
    destruct (sgamma_u fuel (lit 1 2) (x * x)) as [[u|]|]; cbn [obind]; try discriminate.
    intros E. injection E as <-. rewrite fsign_opp by assumption. do 2 f_equal. ring.
Qed.
Lemma serf_even_fail fuel x : serf fuel x = Panic -> serf fuel (- x) = Panic.
Proof.
  unfold serf. rb. rops. unfold R_eqb. destruct (Req_EM_T x 0) as [->|N]; [discriminate|].
  destruct (Req_EM_T (- x) 0); [lra|]. replace (- x * - x) with (x * x) by ring.
  destruct (sgamma_u fuel (lit 1 2) (x * x)) as [[u|]|]; cbn [obind]; try discriminate; auto.
Qed.
Lemma serf_0 fuel : serf fuel 0 = Ret (Some 0).
Proof. unfold serf. rb. rops. rcase; [reflexivity|lra]. Qed.
Lemma serfc_ok fuel x v : serf fuel x = Ret (Some v) -> serfc fuel x = Ret (Some (1 - v)).
Proof. intros E. unfold serfc. rewrite E. reflexivity. Qed.
Lemma serf_never_panics fuel x : serf fuel x <> Panic.
Proof.
  unfold serf. rb. rops. unfold R_eqb. destruct (Req_EM_T x 0) as [->|N]; [discriminate|].
  unfold sgamma_u, sgamma_ur. destruct (sgamma_lr fuel (lit 1 2) (x * x)) as [[u|]|] eqn:E; cbn [obind]; try discriminate.
  - rewrite lit_half', sgamma_ge by lra. cbn [olift obind]. discriminate.
  - exfalso. assert (0 < x * x) by (apply Rlt_0_sqr; assumption). revert E. unfold sgamma_lr. rb. rops.
    unfold R_leb at 1. destruct (Rle_dec (x * x) 0); [lra|].
    repeat match goal with |- context [if ?b then _ else _] => destruct b end; discriminate.
Qed.
(** For |x| <= 1 the computation terminates. *)
Lemma serf_term x : Rabs x <= 1 -> exists fuel v, serf fuel x = Ret (Some v).
Proof.
  intros H. destruct (Req_dec x 0) as [->|N]; [exists 0%nat, 0; apply serf_0|].
  assert (P : 0 < x * x) by (apply Rlt_0_sqr; assumption).
  assert (L : x * x <= 1).
  { rewrite <- (Rabs_right (x * x)) by lra. rewrite Rabs_mult. rewrite <- (Rmult_1_l 1).
    apply Rmult_le_compat; try assumption; apply Rabs_pos. }
  destruct (sgamma_lr_small_term (1 / 2) (x * x) ltac:(lra) P (or_introl L)) as [k [v [E _]]].
  exists k. unfold serf. rb. rops. unfold R_eqb. destruct (Req_EM_T x 0); [contradiction|].
  rewrite lit_half'. unfold sgamma_u, sgamma_ur. rewrite E. cbn [obind]. rewrite sgamma_ge by lra. cbn [olift obind]. eauto.
Qed.

(** ** Inverse error function *)
Lemma serfinv_odd inf x : Rabs x < 1 -> exists v, serfinv inf x = Ret v /\ serfinv inf (- x) = Ret (- v).
Proof.
  intros H. destruct (Req_dec x 0) as [->|N].
  { exists 0. assert (Z : forall y, y = 0 -> serfinv inf y = Ret 0).
    { intros y ->. unfold serfinv. rb. rewrite !lit_R. rops. rewrite Rabs_R0.
      unfold R_leb at 1. destruct (Rle_dec 1 0); [lra|].
      unfold R_leb at 1. destruct (Rle_dec 0 (3 / 4)); [|lra]. f_equal. unfold Rdiv. ring. }
    rewrite Ropp_0. split; apply Z; lra. }
  unfold serfinv. rb. rewrite !lit_R. rops. rewrite Rabs_Ropp.
  unfold R_leb at 1 4. destruct (Rle_dec 1 (Rabs x)); [lra|].
  replace (- x * - x) with (x * x) by ring.
  destruct (R_leb (Rabs x) (3 / 4)); [eexists; split; [reflexivity|f_equal; unfold Rdiv; ring]|].
  destruct (R_leb (Rabs x) (15 / 16)); [eexists; split; [reflexivity|f_equal; unfold Rdiv; ring]|].
  eexists. split; [reflexivity|]. f_equal.
  set (t := 1 / sqrt (- ln (1 - Rabs x))).
  assert (0 < t).
  { unfold t. apply Rdiv_lt_0_compat; [lra|]. apply sqrt_lt_R0.
    assert (0 < Rabs x) by (apply Rabs_pos_lt; assumption).
    assert (ln (1 - Rabs x) < 0); [|lra]. rewrite <- ln_1. apply ln_increasing; lra. }
  assert (CS : copysign t (- x) = - copysign t x).
  { unfold copysign. rb. rops. repeat rcase; lra. }
  rewrite CS. set (c := copysign t x). set (h := horner t ei_q3_0 ei_q3).
  replace (- c * h) with (- (c * h)) by ring. unfold Rdiv. rewrite Rinv_opp. ring.
Qed.
Lemma serfinv_ends inf : serfinv inf 1 = Ret inf /\ serfinv inf (-1) = Ret (- inf).
Proof.
  unfold serfinv. rb. rops. rewrite Rabs_Ropp || idtac.
  replace (Rabs 1) with 1 by (symmetry; apply Rabs_R1).
  replace (Rabs (-1)) with 1 by (symmetry; rewrite Rabs_left; lra).
  split.
  - repeat rcase; try lra; reflexivity.
  - unfold R_leb at 1. destruct (Rle_dec 1 1); [|lra]. unfold R_eqb.
    destruct (Req_EM_T (-1) 1); [lra|]. destruct (Req_EM_T (-1) (- (1))); [reflexivity|lra].
Qed.
Lemma serfinv_panic inf x : 1 < Rabs x -> serfinv inf x = Panic.
Proof.
  intros H. unfold serfinv. rb. rops. unfold R_leb at 1. destruct (Rle_dec 1 (Rabs x)); [|lra].
  unfold R_eqb. destruct (Req_EM_T x 1) as [->|]; [rewrite Rabs_R1 in H; lra|].
  destruct (Req_EM_T x (- (1))) as [->|]; [rewrite Rabs_Ropp, Rabs_R1 in H; lra|reflexivity].
Qed.
Lemma serfcinv_ok inf x : 0 <= x <= 2 -> serfcinv inf x = serfinv inf (1 - x).
Proof. intros H. unfold serfcinv. rb. rewrite lit_R. rops. repeat rcase; try lra. reflexivity. Qed.
Lemma serfcinv_panic inf x : x < 0 \/ 2 < x -> serfcinv inf x = Panic.
Proof. intros H. unfold serfcinv. rb. rewrite lit_R. rops. repeat rcase; try lra; reflexivity. Qed.

(** ** Beta function *)
Lemma sbeta_sym a b : 0 < a -> 0 < b -> sbeta a b = sbeta b a.
Proof.
  intros Ha Hb. unfold sbeta. destruct (sgamma_pos a Ha) as [ga [Ea _]]. destruct (sgamma_pos b Hb) as [gb [Eb _]].
  rewrite Ea, Eb. cbn [bind]. rops. rewrite (Rplus_comm b a). destruct (sgamma (a + b)); [|reflexivity].
  cbn [bind]. f_equal. unfold Rdiv. ring.
Qed.
Lemma sbeta_pos a b : 0 < a -> 0 < b -> exists v, sbeta a b = Ret v /\ 0 < v.
Proof.
  intros Ha Hb. unfold sbeta. destruct (sgamma_pos a Ha) as [ga [Ea Pa]]. destruct (sgamma_pos b Hb) as [gb [Eb Pb]].
  destruct (sgamma_pos (a + b) ltac:(lra)) as [gs [Es Ps]]. rops. rewrite Ea, Eb, Es. cbn [bind].
  eexists. split; [reflexivity|]. apply Rdiv_lt_0_compat; [apply Rmult_lt_0_compat|]; assumption.
Qed.
Lemma sbeta_inc_reg_reflect fuel x a b v : 0 < a -> 0 < b -> 0 < x < 1 -> a <> (a + b) * x ->
  sbeta_inc_reg fuel x a b = Ret (Some v) -> sbeta_inc_reg fuel (1 - x) b a = Ret (Some (1 - v)).
Proof.
  intros Ha Hb Hx N. unfold sbeta_inc_reg. rb. rops.
  assert (T1 : forall u, 0 < u -> R_leb u 0 = false) by (intros; apply R_leb_false; lra).
  assert (T2 : forall u, 0 < u < 1 -> (R_ltb u 0 || R_ltb 1 u)%bool = false).
  { intros u Hu. apply orb_false_iff. rewrite !R_ltb_false. lra. }
  assert (T3 : forall u, 0 < u < 1 -> (R_eqb u 0 || R_eqb u 1)%bool = false).
  { intros u Hu. apply orb_false_iff. rewrite !R_eqb_false. lra. }
  rewrite !T1, !T2, !T3 by lra. cbn [orb]. rewrite (sbeta_sym b a) by assumption.
  rewrite (Rplus_comm b a). replace (1 - (1 - x)) with x by ring.
  destruct (R_ltb a ((a + b) * x)) eqn:S.
  - apply R_ltb_true in S. assert (S' : R_ltb b ((a + b) * (1 - x)) = false) by (apply R_ltb_false; lra).
    rewrite S'. destruct (beta_loop _ _ _ _ _ _ _ _ _ _ _) as [w|]; [|discriminate].
    destruct (sbeta a b) as [bt|]; cbn [olift obind]; [|discriminate].
    intros E. injection E as <-. do 2 f_equal. ring.
  - apply R_ltb_false in S. assert (S' : R_ltb b ((a + b) * (1 - x)) = true) by (apply R_ltb_true; lra).
    rewrite S'. destruct (beta_loop _ _ _ _ _ _ _ _ _ _ _) as [w|]; [|discriminate].
    destruct (sbeta a b) as [bt|]; cbn [olift obind]; [|discriminate].
    intros E. injection E as <-. reflexivity.
Qed.
