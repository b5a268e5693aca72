(** Bernoulli, binomial and Poisson distributions over exact reals. *)
From Coq Require Import Arith Lia List Bool ZArith Reals Lra Factorial.
From Coquelicot Require Import Coquelicot.
From Verif Require Import Outcome Scalar RealOps Elem_model Int_model Ode_model Special_model Stat_model.
From Verif Require Import Stat_spec Combin_proofs.
Local Open Scope R_scope.

Ltac rb := repeat match goal with
  | |- context [ltb ?x ?y] => change (ltb x y) with (R_ltb x y)
  | |- context [leb ?x ?y] => change (leb x y) with (R_leb x y)
  | |- context [eqb ?x ?y] => change (eqb x y) with (R_eqb x y)
  end.
(** Decide one comparison of the goal. *)
Ltac rcase := match goal with
  | |- context [R_ltb ?x ?y] => unfold R_ltb at 1; destruct (Rlt_dec x y)
  | |- context [R_leb ?x ?y] => unfold R_leb at 1; destruct (Rle_dec x y)
  | |- context [R_eqb ?x ?y] => unfold R_eqb at 1; destruct (Req_EM_T x y)
  end; cbn [andb orb negb].
Ltac rops := cbn [zero one add sub mul div neg tabs R_ops tsqrt tpow R_pops texp tln tsin tcos tpi te R_eops
                  of_int as_u32 as_i32 tfloor R_zops] in *.

Lemma lit_2 : lit 2 1 = 2. Proof. unfold lit; cbn [of_Z of_pos]; rops; lra. Qed.

(** ** Sums *)
Lemma sum_to_ext n f g : (forall k, (k <= n)%nat -> f k = g k) -> sum_to n f = sum_to n g.
Proof.
  induction n as [|n IH]; intros H; cbn [sum_to]; [apply H; lia|].
  rewrite IH, H; [reflexivity|lia|]. intros. apply H. lia.
Qed.
Lemma sum_to_plus n f g : sum_to n (fun k => f k + g k) = sum_to n f + sum_to n g.
Proof. induction n as [|n IH]; cbn [sum_to]; [reflexivity|]. rewrite IH. ring. Qed.
Lemma sum_to_scal n a f : sum_to n (fun k => a * f k) = a * sum_to n f.
Proof. induction n as [|n IH]; cbn [sum_to]; [reflexivity|]. rewrite IH. ring. Qed.
Lemma sum_to_shift n f : sum_to (S n) f = f O + sum_to n (fun k => f (S k)).
Proof.
  induction n as [|n IH]; [reflexivity|].
  change (sum_to (S (S n)) f) with (sum_to (S n) f + f (S (S n))). rewrite IH.
  change (sum_to (S n) (fun k => f (S k))) with (sum_to n (fun k => f (S k)) + f (S (S n))). ring.
Qed.
Lemma sum_to_nonneg n f : (forall k, (k <= n)%nat -> 0 <= f k) -> 0 <= sum_to n f.
Proof.
  induction n as [|n IH]; intros H; cbn [sum_to]; [apply H; lia|].
  apply Rplus_le_le_0_compat; [apply IH; intros; apply H; lia|apply H; lia].
Qed.
Lemma sum_to_le n f g : (forall k, (k <= n)%nat -> f k <= g k) -> sum_to n f <= sum_to n g.
Proof.
  induction n as [|n IH]; intros H; cbn [sum_to]; [apply H; lia|].
  apply Rplus_le_compat; [apply IH; intros; apply H; lia|apply H; lia].
Qed.

(** Sum of a sequence that is cut off at [n], accumulated over [0..m). *)
Lemma sumn_cut (f : nat -> R) n : forall m,
  sumn m (fun k => if (k <=? n)%nat then f k else 0)
  = sum_to n (fun k => if (k <? m)%nat then f k else 0).
Proof.
  induction m as [|m IH].
  - cbn [sumn]. rops. rewrite (sum_to_ext n _ (fun k => 0 * f k)).
    + rewrite sum_to_scal. ring.
    + intros k _. cbn. ring.
  - cbn [sumn]. rops. rewrite IH. destruct (Nat.leb_spec m n) as [L|G].
    + clear IH. revert m L. induction n as [|n IHn]; intros m L.
      * replace m with O by lia. cbn. ring.
      * cbn [sum_to]. destruct (Nat.eq_dec m (S n)) as [->|Hm].
        -- rewrite (sum_to_ext n (fun k => if (k <? S (S n))%nat then f k else 0)
                      (fun k => if (k <? S n)%nat then f k else 0)).
           ++ replace (S n <? S n)%nat with false by (symmetry; apply Nat.ltb_ge; lia).
              replace (S n <? S (S n))%nat with true by (symmetry; apply Nat.ltb_lt; lia). ring.
           ++ intros k Hk. destruct (Nat.ltb_spec k (S (S n))); destruct (Nat.ltb_spec k (S n)); lia || reflexivity.
        -- rewrite <- (IHn m ltac:(lia)).
           replace (S n <? m)%nat with false by (symmetry; apply Nat.ltb_ge; lia).
           replace (S n <? S m)%nat with false by (symmetry; apply Nat.ltb_ge; lia). ring.
    + rewrite Rplus_0_r. apply sum_to_ext. intros k Hk.
      destruct (Nat.ltb_spec k (S m)); destruct (Nat.ltb_spec k m); lia || reflexivity.
Qed.

(** ** Bernoulli *)
Lemma bernoulli_new_iff p : bernoulli_new p = Ret (mkBernoulli p) <-> 0 <= p <= 1.
Proof.
  unfold bernoulli_new. rb. rops. rcase; [split; [discriminate|lra]|]. rcase; split; try discriminate; try lra; auto.
Qed.
Lemma bernoulli_new_panic p : bernoulli_new p = Panic <-> ~ (0 <= p <= 1).
Proof.
  unfold bernoulli_new. rb. rops. rcase; [split; [lra|reflexivity]|]. rcase; split; try discriminate; try lra; auto.
Qed.

Lemma bernoulli_pmf_ok p k : (k <= 1)%nat -> bernoulli_pmf (mkBernoulli p) k = Ret (bern_pm p k).
Proof. intros H. destruct k as [|[|k]]; [reflexivity|reflexivity|lia]. Qed.
Lemma bernoulli_pmf_panic (p : R) k : (1 < k)%nat -> bernoulli_pmf (mkBernoulli p) k = Panic.
Proof. intros H. destruct k as [|[|k]]; [lia|lia|reflexivity]. Qed.

Lemma bernoulli_cdf_ok p x : x <> 0 -> bernoulli_cdf (mkBernoulli p) x = prob_le 1 (bern_pm p) x.
Proof.
  intros Hx. unfold bernoulli_cdf, prob_le. cbn [sum_to bn_p INR bern_pm]. rb. rops.
  destruct (Rle_dec 0 x); destruct (Rle_dec 1 x); rcase; try lra; rcase; lra.
Qed.

(** ** Binomial *)
Definition bsum (n : nat) (p : R) (g : nat -> R) : R := expectation n (binomial_law n p) g.

Lemma law_out n p k : (n < k)%nat -> binomial_law n p k = 0.
Proof. intros H. unfold binomial_law. rewrite choose_gt by assumption. cbn [INR]. ring. Qed.

Lemma law_0 n p : binomial_law (S n) p 0 = (1 - p) * binomial_law n p 0.
Proof. unfold binomial_law. rewrite !choose_0, !Nat.sub_0_r. cbn [pow INR]. ring. Qed.

Lemma law_S n p k : (k <= n)%nat ->
  binomial_law (S n) p (S k) = (1 - p) * binomial_law n p (S k) + p * binomial_law n p k.
Proof.
  intros H. unfold binomial_law. cbn [choose]. rewrite plus_INR.
  replace (S n - S k)%nat with (n - k)%nat by lia. destruct (Nat.eq_dec k n) as [->|Hk].
  - rewrite (choose_gt n (S n)) by lia. cbn [INR pow]. ring.
  - replace (n - k)%nat with (S (n - S k)) by lia. cbn [pow]. ring.
Qed.

Lemma bsum_S n p g : bsum (S n) p g = (1 - p) * bsum n p g + p * bsum n p (fun k => g (S k)).
Proof.
  unfold bsum, expectation. rewrite sum_to_shift. rewrite law_0.
  rewrite (sum_to_ext n _ (fun k => (1 - p) * (g (S k) * binomial_law n p (S k))
                                   + p * (g (S k) * binomial_law n p k)))
    by (intros k Hk; rewrite law_S by assumption; ring).
  rewrite sum_to_plus, !sum_to_scal.
  rewrite <- (Rplus_0_r (sum_to n (fun k => g k * binomial_law n p k))).
  replace 0 with (g (S n) * binomial_law n p (S n)) by (rewrite law_out by lia; ring).
  change (sum_to n (fun k => g k * binomial_law n p k) + g (S n) * binomial_law n p (S n))
    with (sum_to (S n) (fun k => g k * binomial_law n p k)).
  rewrite sum_to_shift. ring.
Qed.

Lemma bsum_ext n p g h : (forall k, (k <= n)%nat -> g k = h k) -> bsum n p g = bsum n p h.
Proof. intros H. apply sum_to_ext. intros k Hk. rewrite H by assumption. reflexivity. Qed.
Lemma bsum_lin n p a b g h :
  bsum n p (fun k => a * g k + b * h k) = a * bsum n p g + b * bsum n p h.
Proof.
  unfold bsum, expectation. rewrite <- !sum_to_scal, <- sum_to_plus. apply sum_to_ext. intros. ring.
Qed.

Lemma bsum_1 n p : bsum n p (fun _ => 1) = 1.
Proof.
  induction n as [|n IH].
  - unfold bsum, expectation, binomial_law. cbn. ring.
  - rewrite bsum_S, IH. ring.
Qed.
Lemma bsum_INR n p : bsum n p INR = INR n * p.
Proof.
  induction n as [|n IH].
  - unfold bsum, expectation, binomial_law. cbn. ring.
  - rewrite bsum_S, IH.
    rewrite (bsum_ext n p (fun k => INR (S k)) (fun k => 1 * INR k + 1 * 1))
      by (intros; rewrite S_INR; ring).
    rewrite (bsum_lin n p 1 1 INR (fun _ => 1)), IH, bsum_1, S_INR. ring.
Qed.
Lemma bsum_sq n p : bsum n p (fun k => INR k * INR k) = INR n * p * (1 - p) + INR n * p * (INR n * p).
Proof.
  induction n as [|n IH].
  - unfold bsum, expectation, binomial_law. cbn. ring.
  - rewrite bsum_S, IH.
    rewrite (bsum_ext n p (fun k => INR (S k) * INR (S k))
               (fun k => 1 * (INR k * INR k) + 1 * (2 * INR k + 1 * 1)))
      by (intros; rewrite S_INR; ring).
    rewrite (bsum_lin n p 1 1 (fun k => INR k * INR k) (fun k => 2 * INR k + 1 * 1)).
    rewrite (bsum_lin n p 2 1 INR (fun _ => 1)), IH, bsum_1, bsum_INR, S_INR. ring.
Qed.

Lemma law_sum n p : sum_to n (binomial_law n p) = 1.
Proof.
  rewrite <- (bsum_1 n p). unfold bsum, expectation. apply sum_to_ext. intros. ring.
Qed.
Lemma law_mean n p : d_mean n (binomial_law n p) = INR n * p.
Proof. exact (bsum_INR n p). Qed.
Lemma law_variance n p : d_variance n (binomial_law n p) = INR n * p * (1 - p).
Proof.
  unfold d_variance. rewrite law_mean. fold (bsum n p (fun k => (INR k - INR n * p) * (INR k - INR n * p))).
  rewrite (bsum_ext n p _ (fun k => 1 * (INR k * INR k) + (-1) * (2 * (INR n * p) * INR k + (- (INR n * p * (INR n * p))) * 1)))
    by (intros; ring).
  rewrite (bsum_lin n p 1 (-1) (fun k => INR k * INR k)
             (fun k => 2 * (INR n * p) * INR k + (- (INR n * p * (INR n * p))) * 1)).
  rewrite (bsum_lin n p (2 * (INR n * p)) (- (INR n * p * (INR n * p))) INR (fun _ => 1)).
  rewrite bsum_sq, bsum_INR, bsum_1. ring.
Qed.
Lemma law_nonneg n p k : 0 <= p <= 1 -> 0 <= binomial_law n p k.
Proof.
  intros H. unfold binomial_law. apply Rmult_le_pos; [apply Rmult_le_pos|].
  - apply pos_INR.
  - apply pow_le. lra.
  - apply pow_le. lra.
Qed.

Lemma ichk_i32_small z : (- 2 ^ 31 <= z <= 2 ^ 31 - 1)%Z -> ichk i32 z = Ret z.
Proof.
  intros H. unfold ichk. change (imin i32) with (- 2 ^ 31)%Z. change (imax i32) with (2 ^ 31 - 1)%Z.
  destruct (Z.leb_spec (- 2 ^ 31) z); [|lia]. destruct (Z.leb_spec z (2 ^ 31 - 1)); [reflexivity|lia].
Qed.
Lemma as_i32_small z : (0 <= z <= 2 ^ 31 - 1)%Z -> as_int i32 z = z.
Proof.
  intros H. unfold as_int. cbn [isigned iwidth i32 andb]. change (32 - 1)%Z with 31%Z.
  rewrite Z.mod_small by lia. destruct (Z.leb_spec (2 ^ 31) z); [lia|reflexivity].
Qed.

Lemma binomial_pmf_ok n p k : (n <= 20)%nat -> (k <= n)%nat ->
  binomial_pmf (binomial_new n p) k = Ret (binomial_law n p k).
Proof.
  intros Hn Hk. unfold binomial_pmf, binomial_new. cbn [bi_n bi_p].
  replace (n <? k)%nat with false by (symmetry; apply Nat.ltb_ge; lia).
  rewrite binom_ok by assumption. cbn [bind].
  rewrite !as_i32_small by lia. rewrite ichk_i32_small by lia. cbn [bind]. f_equal.
  unfold of_u. rops. rewrite <- Nat2Z.inj_sub by assumption.
  rewrite <- !INR_IZR_INZ, !R_pow_nat. reflexivity.
Qed.
Lemma binomial_pmf_out n p k : (n < k)%nat -> binomial_pmf (binomial_new n p) k = Ret 0.
Proof.
  intros H. unfold binomial_pmf, binomial_new. cbn [bi_n].
  replace (n <? k)%nat with true by (symmetry; apply Nat.ltb_lt; lia). reflexivity.
Qed.
Lemma binomial_pmf_panic n (p : R) k : (20 < n)%nat -> (k <= n)%nat -> binomial_pmf (binomial_new n p) k = Panic.
Proof.
  intros Hn Hk. unfold binomial_pmf, binomial_new. cbn [bi_n].
  replace (n <? k)%nat with false by (symmetry; apply Nat.ltb_ge; lia).
  rewrite binom_panic_n by assumption. reflexivity.
Qed.

Lemma Int_part_IZR z : Int_part (IZR z) = z.
Proof. unfold Int_part. rewrite up_IZR. lia. Qed.
Lemma Int_part_bounds x : IZR (Int_part x) <= x < IZR (Int_part x) + 1.
Proof. destruct (base_Int_part x). lra. Qed.
Lemma R_trunc_IZR z : R_trunc (IZR z) = z.
Proof.
  unfold R_trunc. destruct (Rlt_dec (IZR z) 0); [rewrite <- opp_IZR|]; rewrite Int_part_IZR; lia.
Qed.
Lemma as_u32_floor_neg x : x < 1 -> as_u32 (tfloor x) = 0%Z.
Proof.
  intros H. rops. rewrite R_trunc_IZR. unfold clamp. change (imin u32) with 0%Z.
  assert (Int_part x < 1)%Z by (apply lt_IZR; pose proof (Int_part_bounds x); lra). lia.
Qed.
Lemma as_u32_floor x : 0 <= x -> x < IZR (2 ^ 32) -> as_u32 (tfloor x) = Int_part x.
Proof.
  intros H0 H1. rops. rewrite R_trunc_IZR. unfold clamp.
  change (imin u32) with 0%Z. change (imax u32) with (2 ^ 32 - 1)%Z.
  pose proof (Int_part_bounds x).
  assert (Int_part x < 2 ^ 32)%Z by (apply lt_IZR; lra).
  assert (-1 < Int_part x)%Z by (apply lt_IZR; lra). lia.
Qed.
Lemma as_u32_floor_big x : IZR (2 ^ 32 - 1) <= x -> as_u32 (tfloor x) = (2 ^ 32 - 1)%Z.
Proof.
  intros H. rops. rewrite R_trunc_IZR. unfold clamp.
  change (imin u32) with 0%Z. change (imax u32) with (2 ^ 32 - 1)%Z.
  pose proof (Int_part_bounds x).
  assert (2 ^ 32 - 1 < Int_part x + 1)%Z by (apply lt_IZR; rewrite plus_IZR; lra). lia.
Qed.

Lemma binomial_cdf_loop n p m : (n <= 20)%nat ->
  for_loop 0 m (fun k prob => let! q := binomial_pmf (binomial_new n p) k in Ret (add prob q)) zero
  = Ret (sumn m (fun k => if (k <=? n)%nat then binomial_law n p k else 0)).
Proof.
  intros Hn.
  destruct (for_loop_ind (fun i s => s = sumn i (fun k => if (k <=? n)%nat then binomial_law n p k else 0))
    (fun k prob => let! q := binomial_pmf (binomial_new n p) k in Ret (add prob q)) 0 m zero) as (s' & E & ->).
  - lia.
  - reflexivity.
  - intros i s Hi ->. eexists. split; [|reflexivity].
    cbn [sumn]. destruct (Nat.leb_spec i n).
    + rewrite binomial_pmf_ok by assumption. reflexivity.
    + rewrite binomial_pmf_out by assumption. reflexivity.
  - exact E.
Qed.

Lemma ichk_u32_small z : (0 <= z <= 2 ^ 32 - 1)%Z -> ichk u32 z = Ret z.
Proof.
  intros H. unfold ichk. change (imin u32) with 0%Z. change (imax u32) with (2 ^ 32 - 1)%Z.
  destruct (Z.leb_spec 0 z); [|lia]. destruct (Z.leb_spec z (2 ^ 32 - 1)); [reflexivity|lia].
Qed.

Lemma binomial_cdf_ok n p x : (n <= 20)%nat -> 0 <= x < IZR (2 ^ 32 - 1) ->
  binomial_cdf (binomial_new n p) x = Ret (prob_le n (binomial_law n p) x).
Proof.
  intros Hn [H0 H1]. unfold binomial_cdf.
  assert (H2 : x < IZR (2 ^ 32)) by (eapply Rlt_trans; [exact H1|apply IZR_lt; lia]).
  rewrite (as_u32_floor x H0 H2).
  pose proof (Int_part_bounds x) as B.
  assert (L1 : (-1 < Int_part x)%Z) by (apply lt_IZR; lra).
  assert (L2 : (Int_part x < 2 ^ 32 - 1)%Z) by (apply lt_IZR; lra).
  rewrite ichk_u32_small by lia. cbn [bind]. rewrite binomial_cdf_loop by assumption.
  f_equal. rewrite sumn_cut. unfold prob_le. apply sum_to_ext. intros k _.
  destruct (Nat.ltb_spec k (Z.to_nat (Int_part x + 1))) as [Hk|Hk]; destruct (Rle_dec (INR k) x) as [Hx|Hx];
    try reflexivity; exfalso.
  - apply Hx. rewrite INR_IZR_INZ. apply Rle_trans with (IZR (Int_part x)); [apply IZR_le; lia|lra].
  - assert (IZR (Int_part x + 1) <= INR k) by (rewrite INR_IZR_INZ; apply IZR_le; lia).
    rewrite plus_IZR in *. lra.
Qed.

Lemma binomial_cdf_neg n p x : (n <= 20)%nat -> x < 0 ->
  binomial_cdf (binomial_new n p) x = Ret (binomial_law n p 0).
Proof.
  intros Hn H. unfold binomial_cdf. rewrite as_u32_floor_neg by lra.
  change (ichk u32 (0 + 1)) with (@Ret Z 1%Z). cbn [bind]. change (Z.to_nat 1) with 1%nat.
  rewrite binomial_cdf_loop by assumption. cbn [sumn]. rops. replace (0 <=? n)%nat with true by reflexivity.
  f_equal. ring.
Qed.
Lemma binomial_cdf_overflow n p x : IZR (2 ^ 32 - 1) <= x -> binomial_cdf (binomial_new n p) x = Panic.
Proof. intros H. unfold binomial_cdf. rewrite as_u32_floor_big by assumption. reflexivity. Qed.

Lemma prob_le_mono n pm x y : (forall k, 0 <= pm k) -> x <= y -> prob_le n pm x <= prob_le n pm y.
Proof.
  intros Hp Hxy. unfold prob_le. apply sum_to_le. intros k _.
  destruct (Rle_dec (INR k) x); destruct (Rle_dec (INR k) y); try lra; auto.
Qed.
Lemma prob_le_all n pm x : INR n <= x -> prob_le n pm x = sum_to n pm.
Proof.
  intros H. unfold prob_le. apply sum_to_ext. intros k Hk. destruct (Rle_dec (INR k) x) as [|G]; [reflexivity|].
  exfalso. apply G. apply Rle_trans with (INR n); [apply le_INR; assumption|assumption].
Qed.
Lemma prob_le_neg n pm x : x < 0 -> prob_le n pm x = 0.
Proof.
  intros H. unfold prob_le. rewrite (sum_to_ext n _ (fun k => 0 * pm k)).
  - rewrite sum_to_scal. ring.
  - intros k _. pose proof (pos_INR k). destruct (Rle_dec (INR k) x); [lra|ring].
Qed.

(** ** Poisson *)

Lemma poisson_pmf_ok g k : (k <= 20)%nat -> poisson_pmf (mkPoisson g) k = Ret (poisson_law g k).
Proof.
  intros H. unfold poisson_pmf. rewrite factorial_ok by assumption. cbn [bind po_g]. unfold of_u. rops.
  f_equal. rewrite <- !INR_IZR_INZ, R_pow_nat. unfold poisson_law. field. apply INR_fact_neq_0.
Qed.
Lemma poisson_pmf_panic (g : R) k : (20 < k)%nat -> poisson_pmf (mkPoisson g) k = Panic.
Proof. intros H. unfold poisson_pmf. rewrite factorial_panic by assumption. reflexivity. Qed.
Lemma poisson_new_iff g : poisson_new g = Ret (mkPoisson g) <-> 0 < g.
Proof. unfold poisson_new. rb. rops. rcase; split; try discriminate; try lra; auto. Qed.
Lemma poisson_new_panic g : poisson_new g = Panic <-> g <= 0.
Proof. unfold poisson_new. rb. rops. rcase; split; try discriminate; try lra; auto. Qed.

(** The law sums to one over all counts. *)
Lemma poisson_total g : is_series (poisson_law g) 1.
Proof.
  unfold poisson_law.
  replace 1 with (exp (- g) * exp g) by (rewrite <- exp_plus; replace (- g + g) with 0 by ring; apply exp_0).
  apply (is_series_ext (fun k => exp (- g) * (g ^ k * / INR (fact k)))).
  { intros k. change (exp (- g) * (g ^ k * / INR (fact k)) = g ^ k / INR (fact k) * exp (- g)).
    unfold Rdiv. ring. }
  apply (is_series_scal_l (exp (- g)) (fun k => g ^ k * / INR (fact k)) (exp g)).
  pose proof (is_exp_Reals g) as H. apply is_pseries_R in H.
  eapply is_series_ext; [|exact H]. intros k.
  change (/ INR (fact k) * g ^ k = g ^ k * / INR (fact k)). ring.
Qed.
