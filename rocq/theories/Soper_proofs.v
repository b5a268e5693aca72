(** The incomplete beta function: Soper's reduction converges to the integral. *)
From Coq Require Import Arith Lia List Bool ZArith Reals Lra Psatz.
From Coquelicot Require Import Coquelicot.
From Verif Require Import Outcome Scalar RealOps Int_model Ode_model Special_model Stat_model.
From Verif Require Import Special_spec Stat_spec Discrete_proofs OdeOrder_proofs Continuous_proofs Normal_proofs Special_proofs GammaFun_proofs GammaDist_proofs StatNew_proofs SpecialNew_proofs.
Local Open Scope R_scope.

(** ** Incomplete beta integrals *)
Lemma at_right_near (P : R -> Prop) b : 0 < b -> (forall x, 0 < x < b -> P x) -> at_right 0 P.
Proof.
  intros Hb H. exists (mkposreal _ Hb). intros y Hy Hl. apply H. split; [exact Hl|].
  unfold ball in Hy; cbn in Hy. unfold AbsRing_ball, abs, minus, plus, opp in Hy; cbn in Hy. apply Rabs_def2 in Hy. lra.
Qed.
Lemma from_zero_le (H h : R -> R) x : 0 < x < 1 -> (forall t, 0 < t < 1 -> is_derive H t (h t)) ->
  (forall t, 0 < t < x -> 0 <= h t) -> filterlim H (at_right 0) (locally 0) -> 0 <= H x.
Proof.
  intros Hx D P L. assert (Q : Rbar_le 0 (H x)); [|exact Q].
  apply (filterlim_le (F := at_right 0) H (fun _ => H x) 0 (H x)); [|exact L|apply filterlim_const].
  apply (at_right_near _ x); [lra|]. intros y Hy.
  destruct (MVT_gen H y x h) as (c & Hc & E).
  - intros t Ht. rewrite Rmin_left, Rmax_right in Ht by lra. apply D. lra.
  - intros t Ht. rewrite Rmin_left, Rmax_right in Ht by lra. apply continuity_pt_filterlim.
    apply (ex_derive_continuous H). exists (h t). apply D. lra.
  - rewrite Rmin_left, Rmax_right in Hc by lra.
    destruct (Req_dec c x) as [->|N]; [|assert (0 <= h c) by (apply P; lra); nra].
    (* the point at the right end: use monotonicity on [y, z] and continuity *)
    assert (M : forall z, y < z < x -> H y <= H z).
    { intros z Hz. destruct (MVT_gen H y z h) as (d & Hd & E').
      - intros t Ht. rewrite Rmin_left, Rmax_right in Ht by lra. apply D. lra.
      - intros t Ht. rewrite Rmin_left, Rmax_right in Ht by lra. apply continuity_pt_filterlim.
        apply (ex_derive_continuous H). exists (h t). apply D. lra.
      - rewrite Rmin_left, Rmax_right in Hd by lra. assert (0 <= h d) by (apply P; lra). nra. }
    assert (Q' : Rbar_le (H y) (H x)); [|exact Q'].
    apply (filterlim_le (F := at_left x) (fun _ => H y) H (H y) (H x)); [|apply filterlim_const|].
    + assert (Hd : 0 < x - y) by lra. exists (mkposreal _ Hd). intros z Hz Hl. apply M. split; [|exact Hl].
      unfold ball in Hz; cbn in Hz. unfold AbsRing_ball, abs, minus, plus, opp in Hz; cbn in Hz. apply Rabs_def2 in Hz. lra.
    + apply cont_left; [|reflexivity]. apply (ex_derive_continuous H). exists (h x). apply D. lra.
Qed.
Lemma inc_beta_unique p q F G : incomplete_beta p q F -> incomplete_beta p q G -> forall x, 0 < x < 1 -> F x = G x.
Proof.
  assert (L : forall F G, incomplete_beta p q F -> incomplete_beta p q G -> forall x, 0 < x < 1 -> 0 <= F x - G x).
  { intros F1 G1 [D1 L1] [D2 L2] x Hx. apply (from_zero_le (fun t => F1 t - G1 t) (fun _ => 0) x Hx).
    - intros t Ht. replace 0 with (Rpower t (p - 1) * Rpower (1 - t) (q - 1) - Rpower t (p - 1) * Rpower (1 - t) (q - 1)) by ring.
      apply (is_derive_minus F1 G1); [now apply D1|now apply D2].
    - intros; lra.
    - apply (filterlim_ext (fun t => F1 t + (-1) * G1 t)); [intros; ring|].
      apply (filterlim_Rplus _ _ 0 0 0); [exact L1| |ring].
      apply (filterlim_Rmult (fun _ => -1) G1 (-1) 0 0); [apply filterlim_const|exact L2|ring]. }
  intros HF HG x Hx. pose proof (L F G HF HG x Hx). pose proof (L G F HG HF x Hx). lra.
Qed.
Lemma inc_beta_term_derive p q c x : 0 < p -> 0 < x < 1 ->
  is_derive (fun x => Rpower x p * Rpower (1 - x) q * c) x
    (c * (p * (Rpower x (p - 1) * Rpower (1 - x) q) - q * (Rpower x p * Rpower (1 - x) (q - 1)))).
Proof.
  intros Hp Hx. apply (is_derive_ext (fun x => c * (Rpower x p * Rpower (1 - x) q))); [intros; apply Rmult_comm|].
  apply (is_derive_scal (fun t => Rpower t p * Rpower (1 - t) q) x c).
  replace (p * (Rpower x (p - 1) * Rpower (1 - x) q) - q * (Rpower x p * Rpower (1 - x) (q - 1))) with
    (p * (Rpower x (p - 1) * Rpower (1 - x) (q - 1)) - (p + q) * (Rpower x p * Rpower (1 - x) (q - 1))).
  - now apply bterm_derive.
  - rewrite (Rpower_pred (1 - x) q), (Rpower_pred x p) by lra. ring.
Qed.
Lemma inc_beta_step p q e c k F G : 0 < p -> incomplete_beta (p + 1) k F ->
  (forall x, 0 < x < 1 -> p * / p * (Rpower x (p - 1) * Rpower (1 - x) e) - e * / p * (Rpower x p * Rpower (1 - x) (e - 1)) + c * (Rpower x p * Rpower (1 - x) (k - 1))
     = Rpower x (p - 1) * Rpower (1 - x) (q - 1)) ->
  (forall x, G x = Rpower x p * Rpower (1 - x) e * / p + c * F x) ->
  incomplete_beta p q G.
Proof.
  intros Hp [D L] H HG. split.
  - intros x Hx. apply (is_derive_ext (fun x => Rpower x p * Rpower (1 - x) e * / p + c * F x)); [intros; symmetry; apply HG|].
    rewrite <- H by assumption.
    replace (p * / p * (Rpower x (p - 1) * Rpower (1 - x) e) - e * / p * (Rpower x p * Rpower (1 - x) (e - 1)) + c * (Rpower x p * Rpower (1 - x) (k - 1)))
      with (/ p * (p * (Rpower x (p - 1) * Rpower (1 - x) e) - e * (Rpower x p * Rpower (1 - x) (e - 1))) + c * (Rpower x (p + 1 - 1) * Rpower (1 - x) (k - 1))) by
      (replace (p + 1 - 1) with p by ring; ring).
    apply (is_derive_plus (fun x => Rpower x p * Rpower (1 - x) e * / p) (fun x => c * F x)).
    + now apply inc_beta_term_derive.
    + apply (is_derive_scal F x c). now apply D.
  - apply (filterlim_ext (fun x => Rpower x p * Rpower (1 - x) e * / p + c * F x)); [intros; symmetry; apply HG|].
    apply (filterlim_Rplus _ _ 0 0 0); [| |ring].
    + apply (filterlim_Rmult _ (fun _ => / p) 0 (/ p) 0); [now apply bterm_lim_0|apply filterlim_const|ring].
    + apply (filterlim_Rmult (fun _ => c) F c 0 0); [apply filterlim_const|exact L|ring].
Qed.
(** Raising p and lowering q; raising p alone. *)
Lemma inc_beta_rec1 p q F : 0 < p -> incomplete_beta (p + 1) (q - 1) F ->
  incomplete_beta p q (fun x => Rpower x p * Rpower (1 - x) (q - 1) * / p + (q - 1) / p * F x).
Proof.
  intros Hp H. apply (inc_beta_step p q (q - 1) ((q - 1) / p) (q - 1) F); auto.
  intros x Hx. field. lra.
Qed.
Lemma inc_beta_rec2 p q F : 0 < p -> incomplete_beta (p + 1) q F ->
  incomplete_beta p q (fun x => Rpower x p * Rpower (1 - x) q * / p + (p + q) / p * F x).
Proof.
  intros Hp H. apply (inc_beta_step p q q ((p + q) / p) q F); auto.
  intros x Hx. rewrite (Rpower_pred (1 - x) q), (Rpower_pred x p) by lra. field. lra.
Qed.
(** Existence. *)
Lemma inc_beta_exists_gt1 p q : 1 < p -> exists F, incomplete_beta p q F.
Proof.
  intros Hp. set (f := fun t => if Rle_dec t 0 then 0 else Rpower t (p - 1) * Rpower (1 - t) (q - 1)).
  assert (FP : forall t, 0 < t -> f t = Rpower t (p - 1) * Rpower (1 - t) (q - 1)).
  { intros t Ht. unfold f. destruct (Rle_dec t 0); [lra|reflexivity]. }
  assert (C1 : forall t, 0 < t < 1 -> continuous f t).
  { intros t Ht. apply (continuous_ext_loc _ (fun t => Rpower t (p - 1) * Rpower (1 - t) (q - 1))).
    - exists (mkposreal t (proj1 Ht)). intros y Hy. symmetry. apply FP.
      unfold ball in Hy; cbn in Hy. unfold AbsRing_ball, abs, minus, plus, opp in Hy; cbn in Hy. apply Rabs_def2 in Hy. lra.
    - apply (continuous_mult (fun t => Rpower t (p - 1)) (fun t => Rpower (1 - t) (q - 1))); [apply Rpower_cont; lra|].
      unfold Rpower. apply (ex_derive_continuous (fun x => exp ((q - 1) * ln (1 - x)))). auto_derive. lra. }
  assert (C0 : continuous f 0).
  { assert (F0 : f 0 = 0) by (unfold f; destruct (Rle_dec 0 0); [reflexivity|lra]).
    unfold continuous. rewrite F0. pose proof (bterm_lim_0 (p - 1) (q - 1) ltac:(lra)) as L.
    intros P HP. destruct (L P HP) as [e He]. exists e. intros y Hy.
    destruct (Rle_dec y 0) as [N|N].
    - unfold f. destruct (Rle_dec y 0); [|lra]. now apply locally_singleton.
    - rewrite FP by lra. apply He; [exact Hy|lra]. }
  assert (CN : forall t, t < 1 -> continuous f t).
  { intros t Ht. destruct (Rtotal_order t 0) as [N|[->|N]]; [|exact C0|apply C1; lra].
    apply (continuous_ext_loc _ (fun _ => 0)); [|apply continuous_const].
    assert (Hd : 0 < - t) by lra. exists (mkposreal _ Hd). intros y Hy.
    unfold ball in Hy; cbn in Hy. unfold AbsRing_ball, abs, minus, plus, opp in Hy; cbn in Hy. apply Rabs_def2 in Hy.
    unfold f. destruct (Rle_dec y 0); [reflexivity|lra]. }
  assert (D : forall x, x < 1 -> is_derive (fun x => RInt f 0 x) x (f x)).
  { intros x Hx. apply (is_derive_RInt f (fun x => RInt f 0 x) 0 x); [|now apply CN].
    assert (Hd : 0 < 1 - x) by lra. exists (mkposreal _ Hd). intros y Hy.
    unfold ball in Hy; cbn in Hy. unfold AbsRing_ball, abs, minus, plus, opp in Hy; cbn in Hy. apply Rabs_def2 in Hy.
    apply (RInt_correct f 0 y). apply (ex_RInt_continuous f 0 y). intros z Hz. apply CN.
    apply Rle_lt_trans with (Rmax 0 y); [tauto|]. apply Rmax_lub_lt; lra. }
  exists (fun x => RInt f 0 x). split.
  - intros x Hx. rewrite <- FP by lra. apply D. lra.
  - apply cont_right; [|rewrite RInt_point; reflexivity]. apply (ex_derive_continuous (fun x => RInt f 0 x)). exists (f 0). apply D. lra.
Qed.
Lemma inc_beta_exists p q : 0 < p -> exists F, incomplete_beta p q F.
Proof.
  intros Hp. destruct (inc_beta_exists_gt1 (p + 1) q ltac:(lra)) as [F HF].
  eexists. apply (inc_beta_rec2 p q F Hp HF).
Qed.
(** Bounds. *)
Lemma Rpower_between t x e : 0 < t < x -> x < 1 -> Rpower (1 - t) e <= 1 + Rpower (1 - x) e.
Proof.
  intros Ht Hx. pose proof (exp_pos (e * ln (1 - x))) as P1. pose proof (exp_pos (e * ln (1 - t))) as P2.
  unfold Rpower in *.
  assert (L1 : ln (1 - x) < ln (1 - t)) by (apply ln_increasing; lra).
  assert (L2 : ln (1 - t) < 0) by (rewrite <- ln_1; apply ln_increasing; lra).
  destruct (Rle_dec 0 e) as [He|He].
  - assert (exp (e * ln (1 - t)) <= exp 0); [|rewrite exp_0 in *; lra].
    destruct (Req_dec (e * ln (1 - t)) 0) as [->|N]; [lra|]. left. apply exp_increasing. nra.
  - assert (exp (e * ln (1 - t)) <= exp (e * ln (1 - x))); [|lra]. left. apply exp_increasing. nra.
Qed.
Lemma inc_beta_upper p q F x : 0 < p -> 0 < x < 1 -> incomplete_beta p q F ->
  F x <= (1 + Rpower (1 - x) (q - 1)) * Rpower x p / p.
Proof.
  intros Hp Hx [D L]. set (C := 1 + Rpower (1 - x) (q - 1)).
  assert (0 <= C * Rpower x p / p - F x); [|lra].
  apply (from_zero_le (fun t => C * Rpower t p / p - F t) (fun t => C * Rpower t (p - 1) - Rpower t (p - 1) * Rpower (1 - t) (q - 1)) x Hx).
  - intros t Ht. apply (is_derive_minus (fun t => C * Rpower t p / p) F); [|now apply D].
    apply (is_derive_ext (fun t => C / p * Rpower t p)); [intros; unfold Rdiv; apply (eq_trans (y := C * Rpower t0 p * / p)); [ring|reflexivity]|].
    replace (C * Rpower t (p - 1)) with (C / p * (p * Rpower t (p - 1))) by (field; lra).
    apply (is_derive_scal (fun t => Rpower t p) t (C / p)).
    apply is_derive_Reals. apply derivable_pt_lim_power. lra.
  - intros t Ht. pose proof (Rpower_between t x (q - 1) Ht ltac:(lra)) as B. fold C in B.
    assert (0 < Rpower t (p - 1)) by apply exp_pos. nra.
  - apply (filterlim_ext (fun t => Rpower t p * (C / p) + (-1) * F t)); [intros; unfold Rdiv; ring|].
    apply (filterlim_Rplus _ _ 0 0 0); [| |ring].
    + apply (filterlim_Rmult _ (fun _ => C / p) 0 (C / p) 0); [now apply Rpower_lim_0|apply filterlim_const|ring].
    + apply (filterlim_Rmult (fun _ => -1) F (-1) 0 0); [apply filterlim_const|exact L|ring].
Qed.
Lemma inc_beta_nonneg p q F x : 0 < x < 1 -> incomplete_beta p q F -> 0 <= F x.
Proof.
  intros Hx [D L]. apply (from_zero_le F (fun t => Rpower t (p - 1) * Rpower (1 - t) (q - 1)) x Hx D); [|exact L].
  intros t Ht. left. apply Rmult_lt_0_compat; apply exp_pos.
Qed.
Lemma inc_beta_pos p q F x : 0 < x < 1 -> incomplete_beta p q F -> 0 < F x.
Proof.
  intros Hx H. pose proof (inc_beta_nonneg p q F (x / 2) ltac:(lra) H) as P. apply Rle_lt_trans with (F (x / 2)); [exact P|].
  destruct H as [D L].
  apply (incr_function_le F (x / 2) x (fun t => Rpower t (p - 1) * Rpower (1 - t) (q - 1))); try lra; try (cbn; lra).
  - intros t H1 H2. apply D. cbn in *. lra.
  - intros t H1 H2. apply Rmult_lt_0_compat; apply exp_pos.
Qed.

(** ** Soper's reduction: the terms the loop adds, and the remainder after j of them *)
Section Soper.
Variables p q x : R.
Variable s : nat.
(** [s] is the number of reductions of the first kind. *)
Hypothesis Hp : 0 < p.
Hypothesis Hq : 0 < q.
Hypothesis Hx : 0 < x < 1.
Hypothesis Hs : (1 <= s)%nat.
Let c := 1 - x.
Definition sop_ratio (j : nat) : R :=
  (if (j <=? s)%nat then q - INR j else p + q + INR (j - s - 1)) * (if (j <? s)%nat then x / (1 - x) else x) / (p + INR j).
Fixpoint sop_term (j : nat) : R := match j with O => 1 | S i => sop_term i * sop_ratio (S i) end.
Fixpoint sop_sum (j : nat) : R := match j with O => 0 | S i => sop_sum i + sop_term i end.
Fixpoint sop_coef (j : nat) : R :=
  match j with
  | O => 1
  | S i => sop_coef i * ((if (i <? s)%nat then q - INR i - 1 else p + q + INR (i - s)) / (p + INR i))
  end.
Definition sop_main : R := Rpower x p * Rpower c (q - 1) / p.
Definition sop_exp (j : nat) : R := if (j <? s)%nat then q - INR j - 1 else q - INR s.
Lemma sop_main_pos : 0 < sop_main.
Proof. unfold sop_main. apply Rdiv_lt_0_compat; [|exact Hp]. apply Rmult_lt_0_compat; apply exp_pos. Qed.
Lemma sop_pj j : 0 < p + INR j.
Proof. pose proof (pos_INR j). lra. Qed.
Lemma Rpower_succ y e : 0 < y -> Rpower y (e + 1) = Rpower y e * y.
Proof. intros Hy. rewrite Rpower_plus, Rpower_1 by assumption. reflexivity. Qed.
Lemma sop_term_main j : sop_main * sop_term j = sop_coef j * (Rpower x (p + INR j) * Rpower c (sop_exp j)) / (p + INR j).
Proof.
  assert (Hc : 0 < c) by (unfold c; lra).
  induction j as [|j IH].
  - cbn [sop_term sop_coef INR]. unfold sop_exp, sop_main. destruct (Nat.ltb_spec 0 s); [|lia]. cbn [INR].
    replace (q - 0 - 1) with (q - 1) by ring. replace (p + 0) with p by ring. field. lra.
  - cbn [sop_term sop_coef]. rewrite <- Rmult_assoc, IH. clear IH. unfold sop_ratio, sop_exp.
    rewrite S_INR. replace (p + (INR j + 1)) with (p + INR j + 1) by ring. rewrite (Rpower_succ x (p + INR j)) by lra.
    pose proof (sop_pj j) as Pj. change (1 - x) with c.
    destruct (Nat.leb_spec (S j) s) as [L1|L1]; destruct (Nat.ltb_spec (S j) s) as [L2|L2]; destruct (Nat.ltb_spec j s) as [L3|L3]; try lia.
    + assert (E : Rpower c (q - INR j - 1) = Rpower c (q - (INR j + 1) - 1) * c)
        by (rewrite <- (Rpower_succ c) by exact Hc; f_equal; ring).
      rewrite E. field. repeat split; lra.
    + assert (E : s = S j) by lia. rewrite E, S_INR. replace (q - (INR j + 1)) with (q - INR j - 1) by ring. field. repeat split; lra.
    + replace (S j - s - 1)%nat with (j - s)%nat by lia. field. repeat split; lra.
Qed.
Lemma sop_identity j : forall F Fj, incomplete_beta p q F -> incomplete_beta (p + INR j) (q - INR (Nat.min j s)) Fj ->
  F x = sop_main * sop_sum j + sop_coef j * Fj x.
Proof.
  induction j as [|j IH]; intros F Fj HF HFj.
  - cbn [sop_sum sop_coef]. cbn [INR Nat.min] in HFj. rewrite Rplus_0_r, Rminus_0_r in HFj.
    rewrite (inc_beta_unique p q F Fj HF HFj x Hx). ring.
  - pose proof (sop_pj j) as Pj. pose proof (sop_term_main j) as TM. cbn [sop_sum sop_coef]. rewrite Rmult_plus_distr_l, TM. clear TM.
    unfold sop_exp. destruct (Nat.ltb_spec j s) as [L|L].
    + rewrite (IH F (fun x => Rpower x (p + INR j) * Rpower (1 - x) (q - INR j - 1) * / (p + INR j) + (q - INR j - 1) / (p + INR j) * Fj x) HF).
      * unfold c. field. lra.
      * replace (Nat.min j s) with j by lia. apply inc_beta_rec1; [exact Pj|].
        replace (Nat.min (S j) s) with (S j) in HFj by lia. rewrite S_INR in HFj.
        replace (p + INR j + 1) with (p + (INR j + 1)) by ring. replace (q - INR j - 1) with (q - (INR j + 1)) by ring. exact HFj.
    + rewrite (IH F (fun x => Rpower x (p + INR j) * Rpower (1 - x) (q - INR s) * / (p + INR j) + (p + INR j + (q - INR s)) / (p + INR j) * Fj x) HF).
      * rewrite minus_INR by lia. unfold c. field. lra.
      * replace (Nat.min j s) with s by lia. apply inc_beta_rec2; [exact Pj|].
        replace (Nat.min (S j) s) with s in HFj by lia. rewrite S_INR in HFj.
        replace (p + INR j + 1) with (p + (INR j + 1)) by ring. exact HFj.
Qed.
Lemma sop_remainder F : incomplete_beta p q F -> exists C, 0 <= C /\ forall j, (s <= j)%nat -> Rabs (F x / sop_main - sop_sum j) <= C * Rabs (sop_term j).
Proof.
  intros HF. pose proof sop_main_pos as MP. assert (Hc : 0 < c) by (unfold c; lra).
  set (B := 1 + Rpower c (q - INR s - 1)). set (D := Rpower c (q - INR s)).
  assert (PB : 0 < B) by (unfold B; pose proof (exp_pos ((q - INR s - 1) * ln c)); unfold Rpower; lra).
  assert (PD : 0 < D) by apply exp_pos.
  exists (B / D). split; [left; now apply Rdiv_lt_0_compat|]. intros j Hj.
  pose proof (sop_pj j) as Pj.
  destruct (inc_beta_exists (p + INR j) (q - INR s) Pj) as [Fj HFj].
  assert (HFj' : incomplete_beta (p + INR j) (q - INR (Nat.min j s)) Fj) by (replace (Nat.min j s) with s by lia; exact HFj).
  pose proof (sop_identity j F Fj HF HFj') as E.
  pose proof (inc_beta_upper _ _ _ x Pj Hx HFj) as U. pose proof (inc_beta_nonneg _ _ _ x Hx HFj) as N.
  pose proof (sop_term_main j) as TM. unfold sop_exp in TM. destruct (Nat.ltb_spec j s); [lia|]. fold D in TM. change (1 - x) with c in U. fold B in U.
  replace (F x / sop_main - sop_sum j) with (sop_coef j * Fj x / sop_main) by (rewrite E; field; lra).
  apply (Rmult_le_reg_r (sop_main * D)); [now apply Rmult_lt_0_compat|].
  unfold Rdiv at 1. rewrite Rabs_mult, (Rabs_mult _ (Fj x)), (Rabs_pos_eq (/ sop_main)), (Rabs_pos_eq (Fj x)) by (try exact N; left; now apply Rinv_0_lt_compat).
  replace (Rabs (sop_coef j) * Fj x * / sop_main * (sop_main * D)) with (Rabs (sop_coef j) * D * Fj x) by (field; lra).
  replace (B / D * Rabs (sop_term j) * (sop_main * D)) with (B * (sop_main * Rabs (sop_term j))) by (field; lra).
  replace (sop_main * Rabs (sop_term j)) with (Rabs (sop_main * sop_term j)) by (rewrite Rabs_mult, (Rabs_pos_eq sop_main); lra).
  rewrite TM. set (X := Rpower x (p + INR j)) in *. assert (PX : 0 < X) by apply exp_pos.
  unfold Rdiv. rewrite !Rabs_mult, (Rabs_pos_eq (/ _)), (Rabs_pos_eq X), (Rabs_pos_eq D) by (left; try assumption; now apply Rinv_0_lt_compat).
  replace (B * (Rabs (sop_coef j) * (X * D) * / (p + INR j))) with (Rabs (sop_coef j) * D * (B * X / (p + INR j))) by (field; lra).
  apply Rmult_le_compat_l; [apply Rmult_le_pos; [apply Rabs_pos|lra]|exact U].
Qed.

(** The ratios of successive terms stay below a bound smaller than one. *)
Hypothesis Hxp : (p + q) * x <= p.
Hypothesis Hs1 : INR s - 1 <= q + c * (p + q) < INR s.
Definition sop_rho : R := Rmax x ((q - 1) / q).
Lemma sop_rho_bounds : 0 < sop_rho < 1.
Proof.
  unfold sop_rho. split; [apply Rlt_le_trans with x; [lra|apply Rmax_l]|].
  apply Rmax_lub_lt; [lra|]. apply (Rmult_lt_reg_r q); [lra|]. unfold Rdiv. rewrite Rmult_assoc, Rinv_l by lra. lra.
Qed.
Lemma sop_ratio_le j : (1 <= j)%nat -> Rabs (sop_ratio j) <= sop_rho.
Proof.
  intros Hj. pose proof (sop_pj j) as Pj. assert (Hc : 0 < c) by (unfold c; lra).
  assert (J1 : 1 <= INR j) by (change 1 with (INR 1); now apply le_INR).
  assert (AB : forall u, Rabs u <= x * (p + INR j) -> Rabs (u / (p + INR j)) <= sop_rho).
  { intros u Hu. apply Rle_trans with x; [|apply Rmax_l]. unfold Rdiv. rewrite Rabs_mult, (Rabs_pos_eq (/ _)) by (left; now apply Rinv_0_lt_compat).
    apply (Rmult_le_reg_r (p + INR j)); [exact Pj|]. rewrite Rmult_assoc, Rinv_l by lra. lra. }
  unfold sop_ratio. change (1 - x) with c.
  destruct (Nat.leb_spec j s) as [L|L].
  - destruct (Nat.ltb_spec j s) as [L2|L2].
    + assert (JS : INR j <= INR s - 1) by (replace 1 with (INR 1) by reflexivity; rewrite <- minus_INR by lia; apply le_INR; lia).
      destruct (Rle_dec (INR j) q) as [Q|Q].
      * (* positive terms *)
        apply Rle_trans with ((q - 1) / q); [|apply Rmax_r].
        assert (A : 0 <= (q - INR j) * (x / c) / (p + INR j)).
        { apply Rmult_le_pos; [|left; now apply Rinv_0_lt_compat]. apply Rmult_le_pos; [lra|]. left. apply Rdiv_lt_0_compat; lra. }
        rewrite Rabs_pos_eq by exact A.
        assert (XC : x / c <= p / q).
        { apply (Rmult_le_reg_r (c * q)); [nra|]. replace (x / c * (c * q)) with (x * q) by (field; lra). replace (p / q * (c * q)) with (p * c) by (field; lra). unfold c. nra. }
        apply Rle_trans with ((q - INR j) * (p / q) / (p + INR j)).
        { apply Rmult_le_compat_r; [left; now apply Rinv_0_lt_compat|]. apply Rmult_le_compat_l; lra. }
        apply (Rmult_le_reg_r (q * (p + INR j))); [nra|].
        replace ((q - INR j) * (p / q) / (p + INR j) * (q * (p + INR j))) with ((q - INR j) * p) by (field; lra).
        replace ((q - 1) / q * (q * (p + INR j))) with ((q - 1) * (p + INR j)) by (field; lra). nra.
      * apply AB. rewrite Rabs_mult, (Rabs_left (q - INR j)), (Rabs_pos_eq (x / c)) by (try (left; apply Rdiv_lt_0_compat); lra).
        apply (Rmult_le_reg_r c); [exact Hc|]. replace (- (q - INR j) * (x / c) * c) with ((INR j - q) * x) by (field; lra).
        assert (INR j - q <= c * (p + q)) by lra. assert ((INR j - q) * x <= c * (p + q) * x) by (apply Rmult_le_compat_r; lra).
        assert (c * ((p + q) * x) <= c * ((p + INR j) * x)) by (apply Rmult_le_compat_l; [lra|]; apply Rmult_le_compat_r; lra). lra.
    + apply AB. assert (E : j = s) by lia. subst j. rewrite Rabs_mult, (Rabs_pos_eq x) by lra.
      rewrite (Rmult_comm x). apply Rmult_le_compat_r; [lra|]. apply Rabs_le. assert (q < INR s) by nra. lra.
  - destruct (Nat.ltb_spec j s); [lia|]. apply AB. pose proof (pos_INR (j - s - 1)).
    rewrite Rabs_mult, !Rabs_pos_eq by lra. rewrite (Rmult_comm x). apply Rmult_le_compat_r; [lra|].
    rewrite !minus_INR by lia. change (INR 1) with 1. assert (q < INR s) by nra. lra.
Qed.
Lemma sop_term_S j : Rabs (sop_term (S j)) <= Rabs (sop_term j) * sop_rho.
Proof. cbn [sop_term]. rewrite Rabs_mult. apply Rmult_le_compat_l; [apply Rabs_pos|]. apply sop_ratio_le. lia. Qed.
Lemma sop_term_geo j n : Rabs (sop_term (j + n)) <= Rabs (sop_term j) * sop_rho ^ n.
Proof.
  pose proof sop_rho_bounds. induction n as [|n IH]; [rewrite Nat.add_0_r; cbn; lra|].
  rewrite Nat.add_succ_r. eapply Rle_trans; [apply sop_term_S|]. cbn [pow].
  replace (Rabs (sop_term j) * (sop_rho * sop_rho ^ n)) with (Rabs (sop_term j) * sop_rho ^ n * sop_rho) by ring. apply Rmult_le_compat_r; lra.
Qed.
Lemma sop_sum_geo j n : Rabs (sop_sum (S j + n) - sop_sum (S j)) <= Rabs (sop_term j) * (sop_rho / (1 - sop_rho)) * (1 - sop_rho ^ n).
Proof.
  pose proof sop_rho_bounds. induction n as [|n IH].
  - rewrite Nat.add_0_r, Rminus_eq_0, Rabs_R0. cbn. lra.
  - rewrite Nat.add_succ_r. change (sop_sum (S (S j + n))) with (sop_sum (S j + n) + sop_term (S j + n)).
    replace (sop_sum (S j + n) + sop_term (S j + n) - sop_sum (S j)) with (sop_sum (S j + n) - sop_sum (S j) + sop_term (S j + n)) by ring.
    eapply Rle_trans; [apply Rabs_triang|].
    pose proof (sop_term_geo j (S n)) as T. replace (j + S n)%nat with (S j + n)%nat in T by lia. cbn [pow] in *.
    apply Rle_trans with (Rabs (sop_term j) * (sop_rho / (1 - sop_rho)) * (1 - sop_rho ^ n) + Rabs (sop_term j) * (sop_rho * sop_rho ^ n)); [lra|].
    right. field. lra.
Qed.
Lemma sop_term_small eps : 0 < eps -> exists N, forall n, (N <= n)%nat -> Rabs (sop_term n) < eps.
Proof.
  intros He. pose proof sop_rho_bounds.
  destruct (pow_lt_1_zero sop_rho ltac:(rewrite Rabs_pos_eq; lra) eps He) as [N HN]. exists N. intros n Hn.
  pose proof (sop_term_geo 0 n) as T. cbn [sop_term] in T. rewrite Rabs_R1, Rmult_1_l in T. cbn [plus Nat.add] in T.
  apply HN in Hn. rewrite Rabs_pos_eq in Hn by (apply pow_le; lra). lra.
Qed.
Lemma sop_tail F j : incomplete_beta p q F ->
  Rabs (F x / sop_main - sop_sum (S j)) <= Rabs (sop_term j) * (sop_rho / (1 - sop_rho)).
Proof.
  intros HF. pose proof sop_rho_bounds as RB. destruct (sop_remainder F HF) as (C & HC & HR).
  apply le_epsilon. intros eps He.
  destruct (sop_term_small (eps / (C + 1))) as [N HN]; [apply Rdiv_lt_0_compat; lra|].
  set (n := (N + s)%nat).
  specialize (HR (S j + n)%nat ltac:(unfold n; lia)). specialize (HN (S j + n)%nat ltac:(unfold n; lia)).
  pose proof (sop_sum_geo j n) as G.
  replace (F x / sop_main - sop_sum (S j)) with (F x / sop_main - sop_sum (S j + n) + (sop_sum (S j + n) - sop_sum (S j))) by ring.
  eapply Rle_trans; [apply Rabs_triang|].
  assert (C * Rabs (sop_term (S j + n)) <= eps).
  { apply Rle_trans with (C * (eps / (C + 1))); [apply Rmult_le_compat_l; lra|].
    apply (Rmult_le_reg_r (C + 1)); [lra|]. replace (C * (eps / (C + 1)) * (C + 1)) with (C * eps) by (field; lra). lra. }
  assert (Rabs (sop_term j) * (sop_rho / (1 - sop_rho)) * (1 - sop_rho ^ n) <= Rabs (sop_term j) * (sop_rho / (1 - sop_rho))).
  { rewrite <- (Rmult_1_r (Rabs (sop_term j) * (sop_rho / (1 - sop_rho)))) at 2. apply Rmult_le_compat_l.
    - apply Rmult_le_pos; [apply Rabs_pos|]. left. apply Rdiv_lt_0_compat; lra.
    - assert (0 <= sop_rho ^ n) by (apply pow_le; lra). lra. }
  lra.
Qed.
Lemma sop_rho_E : sop_rho / (1 - sop_rho) = Rmax (x / (1 - x)) (q - 1).
Proof.
  unfold sop_rho. assert (Q1 : (q - 1) / q < 1) by (apply (Rmult_lt_reg_r q); [lra|]; unfold Rdiv; rewrite Rmult_assoc, Rinv_l by lra; lra).
  assert (Q2 : 1 - (q - 1) / q = / q) by (field; lra).
  destruct (Rle_dec x ((q - 1) / q)) as [L|L].
  - rewrite (Rmax_right x) by exact L. rewrite Rmax_right.
    + rewrite Q2. field. lra.
    + apply (Rmult_le_reg_r (1 - x)); [lra|]. replace (x / (1 - x) * (1 - x)) with x by (field; lra).
      apply (Rmult_le_compat_r q) in L; [|lra]. replace ((q - 1) / q * q) with (q - 1) in L by (field; lra). nra.
  - rewrite (Rmax_left x) by lra. rewrite Rmax_left; [reflexivity|].
    apply (Rmult_le_reg_r (1 - x)); [lra|]. replace (x / (1 - x) * (1 - x)) with x by (field; lra).
    assert (L' : (q - 1) / q < x) by lra. apply (Rmult_lt_compat_r q) in L'; [|lra]. replace ((q - 1) / q * q) with (q - 1) in L' by (field; lra). nra.
Qed.
(** The stopping test is eventually met. *)
Definition sop_test (acu : R) (j : nat) : Prop := Rabs (sop_term j) <= acu /\ Rabs (sop_term j) <= acu * sop_sum (S j).
Lemma sop_test_ev acu : 0 < acu -> exists N, sop_test acu (S N).
Proof.
  intros Ha. destruct (inc_beta_exists p q Hp) as [F HF]. pose proof (inc_beta_pos p q F x Hx HF) as FP. pose proof sop_main_pos as MP.
  pose proof sop_rho_bounds as RB. set (V := F x / sop_main). assert (PV : 0 < V) by now apply Rdiv_lt_0_compat.
  set (E := sop_rho / (1 - sop_rho)). assert (PE : 0 < E) by (apply Rdiv_lt_0_compat; lra).
  set (e1 := V / 2 / E). assert (P1 : 0 < e1) by (apply Rdiv_lt_0_compat; lra).
  set (e2 := acu * (V / 2)). assert (P2 : 0 < e2) by (apply Rmult_lt_0_compat; lra).
  destruct (sop_term_small (Rmin acu (Rmin e1 e2))) as [N HN]; [repeat apply Rmin_pos; assumption|].
  exists N. specialize (HN (S N) ltac:(lia)).
  pose proof (Rmin_l acu (Rmin e1 e2)). pose proof (Rmin_r acu (Rmin e1 e2)). pose proof (Rmin_l e1 e2). pose proof (Rmin_r e1 e2).
  split; [lra|]. pose proof (sop_tail F (S N) HF) as T. fold V E in T.
  assert (A : Rabs (sop_term (S N)) * E <= V / 2).
  { apply Rle_trans with (e1 * E); [apply Rmult_le_compat_r; lra|]. unfold e1. right. field. lra. }
  assert (B : V / 2 <= sop_sum (S (S N))). { apply Rabs_le_between in T || apply Rcomplements.Rabs_le_between in T. lra. }
  apply Rle_trans with e2; [lra|]. unfold e2. apply Rmult_le_compat_l; lra.
Qed.
End Soper.

(** ** The loop of the crate *)
Lemma beta_acu_R : (beta_acu : R) = 1 / 1000000000000000.
Proof. unfold beta_acu. rewrite lit_R. reflexivity. Qed.
Definition sop_state (fuel : nat) (p q x : R) (s j : nat) : option R :=
  beta_loop fuel p q x (Z.of_nat s - Z.of_nat j) (p + q + INR (j - s)) (INR j) (sop_term p q x s (j - 1)) (sop_sum p q x s j)
    (if (j <=? s)%nat then q - INR j else p + q + INR (j - s - 1)) (if (j <? s)%nat then x / (1 - x) else x).
Lemma sop_loop_step p q x s j fuel : 0 < p -> (1 <= j)%nat ->
  sop_state (S fuel) p q x s j =
  if andb (R_leb (Rabs (sop_term p q x s j)) beta_acu) (R_leb (Rabs (sop_term p q x s j)) (beta_acu * sop_sum p q x s (S j)))
  then Some (sop_sum p q x s (S j)) else sop_state fuel p q x s (S j).
Proof.
  intros Hp Hj. unfold sop_state at 1. destruct j as [|i]; [lia|]. replace (S i - 1)%nat with i by lia. cbn [beta_loop]. rb. rops.
  set (tmp := if (S i <=? s)%nat then _ else _). set (rx := if (S i <? s)%nat then _ else _).
  assert (ET : sop_term p q x s i * tmp * rx / (p + INR (S i)) = sop_term p q x s (S i)).
  { cbn [sop_term]. unfold sop_ratio. fold tmp rx. unfold Rdiv. ring. }
  rewrite ET. change (sop_sum p q x s (S i) + sop_term p q x s (S i)) with (sop_sum p q x s (S (S i))).
  destruct (andb _ _); [reflexivity|]. unfold sop_state. replace (S (S i) - 1)%nat with (S i) by lia.
  replace (INR (S i) + 1) with (INR (S (S i))) by (rewrite (S_INR (S i)); ring).
  replace (Z.of_nat s - Z.of_nat (S i) - 1)%Z with (Z.of_nat s - Z.of_nat (S (S i)))%Z by lia.
  destruct (Z.leb_spec 0 (Z.of_nat s - Z.of_nat (S (S i)))) as [L|L].
  - destruct (Nat.leb_spec (S (S i)) s); [|lia]. unfold rx. replace (S i - s)%nat with (S (S i) - s)%nat by lia.
    f_equal. destruct (Z.eqb_spec (Z.of_nat s - Z.of_nat (S (S i))) 0); destruct (Nat.ltb_spec (S (S i)) s); destruct (Nat.ltb_spec (S i) s); reflexivity || lia.
  - destruct (Nat.leb_spec (S (S i)) s); [lia|]. unfold rx. destruct (Nat.ltb_spec (S (S i)) s); [lia|]. destruct (Nat.ltb_spec (S i) s); [lia|].
    replace (S (S i) - s - 1)%nat with (S i - s)%nat by lia. f_equal. replace (S (S i) - s)%nat with (S (S i - s)) by lia. rewrite (S_INR (S i - s)). ring.
Qed.
Lemma sop_loop p q x s : 0 < p -> forall n j, (1 <= j)%nat -> sop_test p q x s beta_acu (j + n) ->
  exists N, (j <= N)%nat /\ sop_test p q x s beta_acu N /\
  forall fuel, (n < fuel)%nat -> sop_state fuel p q x s j = Some (sop_sum p q x s (S N)).
Proof.
  intros Hp. induction n as [|n IH]; intros j Hj HT.
  - rewrite Nat.add_0_r in HT. exists j. split; [lia|]. split; [exact HT|]. intros [|fuel] Hf; [lia|].
    rewrite sop_loop_step by assumption. destruct HT as [H1 H2]. rewrite <- R_leb_true in H1, H2. rewrite H1, H2. reflexivity.
  - destruct (IH (S j) ltac:(lia)) as (N & HN & TN & HL); [replace (S j + n)%nat with (j + S n)%nat by lia; exact HT|].
    destruct (andb (R_leb (Rabs (sop_term p q x s j)) beta_acu) (R_leb (Rabs (sop_term p q x s j)) (beta_acu * sop_sum p q x s (S j)))) eqn:B.
    + exists j. split; [lia|]. split.
      * apply andb_true_iff in B. rewrite !R_leb_true in B. exact B.
      * intros [|fuel] Hf; [lia|]. rewrite sop_loop_step, B by assumption. reflexivity.
    + exists N. split; [lia|]. split; [exact TN|]. intros [|fuel] Hf; [lia|]. rewrite sop_loop_step, B by assumption. apply HL. lia.
Qed.
Lemma as_i32_count (y : R) : 0 <= y < 2147483647 -> exists s, (1 <= s)%nat /\ as_i32 y = (Z.of_nat s - 1)%Z /\ INR s - 1 <= y < INR s.
Proof.
  intros Hy. rops. unfold R_trunc. destruct (Rlt_dec y 0); [lra|].
  destruct (base_Int_part y) as [B1 B2].
  assert (Z0 : (0 <= Int_part y)%Z).
  { apply Z.lt_succ_r. apply lt_IZR. rewrite succ_IZR. lra. }
  assert (Z1 : (Int_part y < 2147483647)%Z) by (apply lt_IZR; lra).
  exists (Z.to_nat (Int_part y + 1)). split; [lia|]. rewrite INR_IZR_INZ, Z2Nat.id by lia. rewrite plus_IZR. split; [|lra].
  unfold clamp. change (imin i32) with (-2147483648)%Z. change (imax i32) with 2147483647%Z. lia.
Qed.
(** One half of the crate's function: x below the mean a/(a+b). *)
Lemma sbeta_loop_ok p q x : 0 < p -> 0 < q -> 0 < x < 1 -> (p + q) * x <= p -> p + q <= 1073741823 ->
  exists k w, (forall fuel, (k <= fuel)%nat ->
    beta_loop fuel p q x (as_i32 (q + (1 - x) * (p + q))) (p + q) 1 1 1 (q - 1)
      (if Z.eqb (as_i32 (q + (1 - x) * (p + q))) 0%Z then x else x / (1 - x)) = Some w) /\ 0 <= w /\
  forall F, incomplete_beta p q F ->
    Rabs (w * (Rpower x p * Rpower (1 - x) (q - 1) / p) - F x) <= 1 / 1000000000000000 * Rmax (x / (1 - x)) (q - 1) * (w * (Rpower x p * Rpower (1 - x) (q - 1) / p)).
Proof.
  intros Hp Hq Hx Hxp Hb.
  destruct (as_i32_count (q + (1 - x) * (p + q))) as (s & Hs & Es & Hs1); [nra|].
  rewrite Es.
  assert (PA : (0 < beta_acu)%R) by (rewrite beta_acu_R; lra).
  destruct (sop_test_ev p q x s Hp Hq Hx Hs Hxp Hs1 beta_acu PA) as [n Hn].
  destruct (sop_loop p q x s Hp n 1 ltac:(lia) Hn) as (N & HN & TN & HL).
  exists (S n), (sop_sum p q x s (S N)).
  assert (W : 0 <= sop_sum p q x s (S N)).
  { destruct TN as [_ T]. pose proof (Rabs_pos (sop_term p q x s N)). apply (Rmult_le_reg_l beta_acu); [exact PA|]. lra. }
  split; [|split; [exact W|]].
  - intros fuel Hf. rewrite <- (HL fuel ltac:(lia)). unfold sop_state. replace (1 - s)%nat with 0%nat by lia.
    destruct (Nat.leb_spec 1 s); [|lia]. cbn [sop_term sop_sum INR Nat.sub]. rewrite Rplus_0_r, Rplus_0_l. f_equal.
    destruct (Z.eqb_spec (Z.of_nat s - 1) 0); destruct (Nat.ltb_spec 1 s); reflexivity || lia.
  - intros F HF. pose proof (sop_tail p q x s Hp Hq Hx Hs Hxp Hs1 F N HF) as T.
    rewrite sop_rho_E in T by assumption. pose proof (sop_main_pos p q x Hp) as MP.
    destruct TN as [_ T2]. rewrite beta_acu_R in T2.
    set (E := Rmax (x / (1 - x)) (q - 1)) in *.
    assert (PE : 0 < E) by (apply Rlt_le_trans with (x / (1 - x)); [apply Rdiv_lt_0_compat; lra|apply Rmax_l]).
    change (Rpower x p * Rpower (1 - x) (q - 1) / p) with (sop_main p q x). set (M := sop_main p q x) in *. set (w := sop_sum p q x s (S N)) in *.
    replace (w * M - F x) with (- ((F x / M - w) * M)) by (field; lra). rewrite Rabs_Ropp, Rabs_mult, (Rabs_pos_eq M) by lra.
    replace (1 / 1000000000000000 * E * (w * M)) with (1 / 1000000000000000 * w * E * M) by ring. apply Rmult_le_compat_r; [lra|].
    eapply Rle_trans; [exact T|]. apply Rmult_le_compat_r; lra.
Qed.
Lemma sop_factor p q x bt : 0 < p -> 0 < bt -> exp (p * ln x + (q - 1) * ln (1 - x) - ln bt) / p = Rpower x p * Rpower (1 - x) (q - 1) / p / bt.
Proof.
  intros Hp Hbt. unfold Rminus at 1. rewrite exp_plus, exp_plus, exp_Ropp, exp_ln by assumption. unfold Rpower. field. lra.
Qed.
Lemma sbeta_inc_reg_low a b x : 0 < a -> 0 < b -> 0 < x < 1 -> (a + b) * x <= a -> a + b <= 1073741823 ->
  exists bt k v, sbeta a b = Ret bt /\ 0 < bt /\ 0 <= v /\ (forall fuel, (k <= fuel)%nat -> sbeta_inc_reg fuel x a b = Ret (Some v)) /\
  forall F, incomplete_beta a b F -> Rabs (v - F x / bt) <= 1 / 1000000000000000 * Rmax (x / (1 - x)) (b - 1) * v.
Proof.
  intros Ha Hb Hx Hxa Hab. destruct (sbeta_pos a b Ha Hb) as (bt & Ebt & Pbt).
  destruct (sbeta_loop_ok a b x Ha Hb Hx Hxa Hab) as (k & w & HL & HW & HF).
  set (M := Rpower x a * Rpower (1 - x) (b - 1) / a) in *.
  assert (PM : 0 < M) by (apply Rdiv_lt_0_compat; [apply Rmult_lt_0_compat; apply exp_pos|exact Ha]).
  exists bt, k, (w * M / bt). split; [exact Ebt|]. split; [exact Pbt|]. split; [|split].
  - apply Rmult_le_pos; [nra|]. left. now apply Rinv_0_lt_compat.
  - intros fuel Hf. specialize (HL fuel Hf). unfold sbeta_inc_reg. rb. rops. rewrite Ebt. cbn [olift obind].
    assert (R_leb a 0 = false) as -> by (apply R_leb_false; lra). assert (R_leb b 0 = false) as -> by (apply R_leb_false; lra).
    assert (R_ltb x 0 = false) as -> by (apply R_ltb_false; lra). assert (R_ltb 1 x = false) as -> by (apply R_ltb_false; lra).
    assert (R_eqb x 0 = false) as -> by (apply R_eqb_false; lra). assert (R_eqb x 1 = false) as -> by (apply R_eqb_false; lra).
    assert (R_ltb a ((a + b) * x) = false) as -> by (apply R_ltb_false; lra). cbn [orb]. rops.
    rewrite HL. do 2 f_equal. unfold Rdiv at 1. rewrite Rmult_assoc. change (exp (a * ln x + (b - 1) * ln (1 - x) - ln bt) * / a) with (exp (a * ln x + (b - 1) * ln (1 - x) - ln bt) / a).
    rewrite sop_factor by assumption. fold M. unfold Rdiv. ring.
  - intros F HFF. specialize (HF F HFF). replace (w * M / bt - F x / bt) with ((w * M - F x) * / bt) by (field; lra).
    rewrite Rabs_mult, (Rabs_pos_eq (/ bt)) by (left; now apply Rinv_0_lt_compat).
    unfold Rdiv at 3. rewrite <- (Rmult_assoc _ (w * M) (/ bt)). apply Rmult_le_compat_r; [left; now apply Rinv_0_lt_compat|exact HF].
Qed.
Lemma sbeta_inc_reg_high a b x : 0 < a -> 0 < b -> 0 < x < 1 -> a < (a + b) * x -> a + b <= 1073741823 ->
  exists bt k v, sbeta a b = Ret bt /\ 0 < bt /\ v <= 1 /\ (forall fuel, (k <= fuel)%nat -> sbeta_inc_reg fuel x a b = Ret (Some v)) /\
  forall F, incomplete_beta b a F -> Rabs ((1 - v) - F (1 - x) / bt) <= 1 / 1000000000000000 * Rmax ((1 - x) / x) (a - 1) * (1 - v).
Proof.
  intros Ha Hb Hx Hxa Hab. destruct (sbeta_inc_reg_low b a (1 - x) Hb Ha ltac:(lra) ltac:(lra) ltac:(lra)) as (bt & k & v & Ebt & Pbt & Hv & HL & HF).
  exists bt, k, (1 - v). rewrite sbeta_sym by assumption. split; [exact Ebt|]. split; [exact Pbt|]. split; [lra|]. split.
  - intros fuel Hf. specialize (HL fuel Hf).
    pose proof (sbeta_inc_reg_reflect fuel (1 - x) b a v Hb Ha ltac:(lra) ltac:(lra) HL) as R. replace (1 - (1 - x)) with x in R by ring. exact R.
  - intros F HFF. replace (1 - (1 - v)) with v by ring. specialize (HF F HFF). replace (1 - (1 - x)) with x in HF by ring. exact HF.
Qed.

(** ** The beta distribution function with the crate's own beta functions *)
Lemma inc_beta_scaled p q bt F : 0 < bt -> incomplete_beta p q F ->
  (forall t, 0 < t < 1 -> is_derive (fun t => F t / bt) t (bpdf p q bt t)) /\ filterlim (fun t => F t / bt) (at_right 0) (locally 0).
Proof.
  intros Hb [D L]. split.
  - intros t Ht. apply (is_derive_ext (fun t => / bt * F t)); [intros; unfold Rdiv; apply Rmult_comm|].
    unfold bpdf. replace (Rpower t (p - 1) * Rpower (1 - t) (q - 1) / bt) with (/ bt * (Rpower t (p - 1) * Rpower (1 - t) (q - 1))) by (unfold Rdiv; ring).
    apply (is_derive_scal F t (/ bt)). now apply D.
  - apply (filterlim_Rmult F (fun _ => / bt) 0 (/ bt) 0); [exact L|apply filterlim_const|ring].
Qed.
Lemma bpdf_pos p q bt t : 0 < bt -> 0 < bpdf p q bt t.
Proof. intros Hb. unfold bpdf. apply Rdiv_lt_0_compat; [apply Rmult_lt_0_compat; apply exp_pos|exact Hb]. Qed.
Lemma beta_cdf_low p q (d : @beta_d R) x : 0 < p -> beta_new p q = Ret d -> p + q <= 1073741823 -> 0 < x < 1 -> x <= beta_mean d ->
  exists k v f F, (forall fuel, (k <= fuel)%nat -> beta_cdf (Sp := impl_special fuel) d x = Ret v) /\
  (forall fuel t, 0 < t < 1 -> beta_pdf (Sp := impl_special fuel) d t = Ret (f t) /\ 0 < f t) /\
  (forall t, 0 < t < 1 -> is_derive F t (f t)) /\ filterlim F (at_right 0) (locally 0) /\
  Rabs (v - F x) <= 1 / 1000000000000000 * Rmax (x / (1 - x)) (q - 1) * v.
Proof.
  intros Hp E Hpq Hx M. destruct (beta_new_inv _ _ _ E) as [[_ Hq] ->]. unfold beta_mean in M; cbn [be_p be_q] in M.
  assert (M' : (p + q) * x <= p).
  { apply (Rmult_le_compat_r (p + q)) in M; [|lra]. revert M. rops. unfold Rdiv. rewrite Rmult_assoc, Rinv_l by lra. lra. }
  destruct (sbeta_inc_reg_low p q x Hp Hq Hx M' Hpq) as (bt & k & v & Ebt & Pbt & Hv & HL & HF).
  destruct (inc_beta_exists p q Hp) as [F HFF]. destruct (inc_beta_scaled p q bt F Pbt HFF) as [D L].
  exists k, v, (bpdf p q bt), (fun t => F t / bt). split; [|split; [|split; [exact D|split; [exact L|now apply HF]]]].
  - intros fuel Hf. unfold beta_cdf; cbn [be_p be_q x_beta_inc_reg impl_special]. rewrite HL by exact Hf. reflexivity.
  - intros fuel t Ht. split; [|now apply bpdf_pos]. apply beta_pdf_eq; [exact Ht|exact Ebt].
Qed.
Lemma beta_cdf_high p q (d : @beta_d R) x : 0 < p -> beta_new p q = Ret d -> p + q <= 1073741823 -> 0 < x < 1 -> beta_mean d < x ->
  exists k v f G, (forall fuel, (k <= fuel)%nat -> beta_cdf (Sp := impl_special fuel) d x = Ret v) /\
  (forall fuel t, 0 < t < 1 -> beta_pdf (Sp := impl_special fuel) d t = Ret (f t) /\ 0 < f t) /\
  (forall t, 0 < t < 1 -> is_derive G t (- f t)) /\ filterlim G (at_left 1) (locally 0) /\
  Rabs ((1 - v) - G x) <= 1 / 1000000000000000 * Rmax ((1 - x) / x) (p - 1) * (1 - v).
Proof.
  intros Hp E Hpq Hx M. destruct (beta_new_inv _ _ _ E) as [[_ Hq] ->]. unfold beta_mean in M; cbn [be_p be_q] in M.
  assert (M' : p < (p + q) * x).
  { apply (Rmult_lt_compat_r (p + q)) in M; [|lra]. revert M. rops. unfold Rdiv. rewrite Rmult_assoc, Rinv_l by lra. lra. }
  destruct (sbeta_inc_reg_high p q x Hp Hq Hx M' Hpq) as (bt & k & v & Ebt & Pbt & Hv & HL & HF).
  destruct (inc_beta_exists q p Hq) as [F HFF]. destruct (inc_beta_scaled q p bt F Pbt HFF) as [D L].
  exists k, v, (bpdf p q bt), (fun t => F (1 - t) / bt). split; [|split; [|split; [|split; [|now apply HF]]]].
  - intros fuel Hf. unfold beta_cdf; cbn [be_p be_q x_beta_inc_reg impl_special]. rewrite HL by exact Hf. reflexivity.
  - intros fuel t Ht. split; [|now apply bpdf_pos]. apply beta_pdf_eq; [exact Ht|exact Ebt].
  - intros t Ht. replace (- bpdf p q bt t) with ((-1) * bpdf q p bt (1 - t)).
    + apply (is_derive_comp (fun t => F t / bt) (fun t => 1 - t) t); [apply D; lra|].
      auto_derive; [exact I|ring].
    + unfold bpdf. replace (1 - (1 - t)) with t by ring. unfold Rdiv. ring.
  - apply (filterlim_comp _ _ _ (fun t => 1 - t) (fun t => F t / bt) (at_left 1) (at_right 0)); [|exact L].
    intros P [e He]. exists e. intros y Hy Hl. apply He; [|lra].
    unfold ball in *; cbn in *. unfold AbsRing_ball, abs, minus, plus, opp in *; cbn in *.
    rewrite <- Rabs_Ropp. replace (- (1 - y + - 0)) with (y + - 1) by ring. exact Hy.
Qed.
Lemma beta_cdf_ends p q (d : @beta_d R) : 0 < p -> beta_new p q = Ret d -> forall fuel,
  beta_cdf (Sp := impl_special fuel) d 0 = Ret 0 /\ beta_cdf (Sp := impl_special fuel) d 1 = Ret 1 /\
  forall x, x < 0 \/ 1 < x -> beta_cdf (Sp := impl_special fuel) d x = Panic.
Proof.
  intros Hp E fuel. destruct (beta_new_inv _ _ _ E) as [[_ Hq] ->]. unfold beta_cdf; cbn [be_p be_q x_beta_inc_reg impl_special].
  destruct (sbeta_inc_reg_ends fuel p q Hp Hq) as [E0 E1]. rewrite E0, E1. repeat split.
  intros x Hx. rewrite sbeta_inc_reg_panic; [reflexivity|tauto].
Qed.
