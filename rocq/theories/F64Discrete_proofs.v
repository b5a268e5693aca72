(** Rounding errors of the binomial and the Poisson distribution in binary64. *)
From Coq Require Import Arith Lia List Bool ZArith Reals Lra Psatz SpecFloat.
From Flocq Require Import Core IEEE754.BinarySingleNaN.
From Verif Require Import Outcome Scalar RealOps Elem_model Int_model Int_spec Int_proofs Ode_model Complex_model Special_model Stat_model Stat_spec F64_spec F64Cplx_spec F64Gamma_spec F64Density_spec
  F64Flocq F64Err_proofs F64Grid_proofs F64Euler_proofs F64Lin_proofs F64QR_proofs F64Libm_proofs F64Var_proofs F64Gamma_proofs F64GammaFun_proofs Sums Combin_proofs Discrete_proofs F64Density_proofs.
Local Open Scope R_scope.

(** ** Powers with a natural exponent *)
Lemma pow_40z p k : bpow radix2 (-40) <= p <= 1 -> bpow radix2 (-40 * Z.of_nat k) <= p ^ k <= 1.
Proof.
  intros (L & H). pose proof (bpow_gt_0 radix2 (-40)) as B. split.
  - apply Rle_trans with (bpow radix2 (-40) ^ k); [|apply pow_incr; lra]. right.
    clear. induction k as [|k IH]; [reflexivity|]. cbn [pow]. rewrite <- IH, <- bpow_plus. f_equal. lia.
  - replace 1 with (1 ^ k) by apply pow1. apply pow_incr. lra.
Qed.
Lemma pow_40 p k : bpow radix2 (-40) <= p <= 1 -> (k <= 20)%nat -> bpow radix2 (-800) <= p ^ k <= 1.
Proof. intros Hp Hk. destruct (pow_40z p k Hp) as (L & H). split; [|exact H]. eapply Rle_trans; [|exact L]. apply bpow_le. lia. Qed.
Lemma safe_800 r : bpow radix2 (-800) <= r <= 1 -> safe r.
Proof.
  intros (L & H). split; [eapply Rle_trans; [|exact L]; apply bpow_le; lia|]. eapply Rle_trans; [exact H|]. change 1 with (bpow radix2 0). apply bpow_le. lia.
Qed.
Lemma Rpower_INR x k : 0 < x -> Rpower x (INR k) = x ^ k.
Proof. intro H. now apply Rpower_pow. Qed.

(** ** Sums of positive numbers *)
Lemma near_plus c x y X Y : near c x X -> near c y Y -> near c (x + y) (X + Y).
Proof. intros (P & L & H) (P' & L' & H'). split; [lra|]. lra. Qed.
Lemma fnear_add c x y X Y : fnear c x X -> fnear c y Y -> 0 <= c <= / 100 -> bpow radix2 (-999) <= X + Y <= bpow radix2 1022 ->
  fnear (c + 103 / 100 * uro) (add x y) (X + Y).
Proof.
  intros ((Vx & Fx) & Nx) ((Vy & Fy) & Ny) C B. pose proof (near_plus _ _ _ _ _ Nx Ny) as NP. pose proof (near_range _ _ _ C NP) as Rg.
  assert (B1 : bpow radix2 1023 = 2 * bpow radix2 1022) by (change 1023%Z with (1 + 1022)%Z; rewrite bpow_plus; reflexivity).
  assert (B2 : bpow radix2 (-999) = 2 * bpow radix2 (-1000)) by (change (-999)%Z with (1 + -1000)%Z; rewrite bpow_plus; reflexivity).
  assert (B0 : 0 < bpow radix2 (-1000)) by apply bpow_gt_0. assert (A : Rabs (fval x + fval y) = fval x + fval y) by (apply Rabs_pos_eq; lra).
  destruct (fadd_ok x y Vx Vy Fx Fy) as (V & F & Er); [rewrite A; lra|]. rewrite A in Er. split; [split; assumption|].
  rewrite Rplus_comm. eapply near_trans; [eapply round_near; [|]; [|eapply Rle_trans; [exact Er|]]; [lra|]|exact NP]. pose proof (bpow_ge_0 radix2 (-1075)) as E0. change (bpow radix2 (-1075)) with eta64 in E0. lra.
Qed.

(** ** Flooring and conversion *)
Lemma floor_val (x : f64) : fgood x -> 0 <= fval x < IZR (2 ^ 32) -> as_u32 (tfloor x) = Int_part (fval x).
Proof.
  intros (V & F) H. assert (K : exists q, (IZR q <= fval x < IZR q + 1) /\ ffin (tfloor x) = true /\ fval (tfloor x) = IZR q).
  { destruct x as [s|s| |s m e]; try discriminate.
    - exists 0%Z. split; [change (fval (S754_zero s)) with 0; lra|]. split; [reflexivity|]. reflexivity.
    - assert (Hp : 0 < IZR (Zpos m) * bpow radix2 e) by (apply Rmult_lt_0_compat; [apply IZR_lt; lia|apply bpow_gt_0]).
      assert (Ev : fval (S754_finite s m e) = IZR (cond_Zopp s (Zpos m)) * bpow radix2 e) by reflexivity.
      destruct s; [exfalso; rewrite Ev in H; cbn [cond_Zopp] in H; change (Z.neg m) with (- Z.pos m)%Z in H; rewrite opp_IZR in H; lra|]. cbn [cond_Zopp] in Ev.
      destruct (trunc_mag m e) as (Q0 & Q1). rewrite <- Ev in Q1. cbn [tfloor F64_zops SFopp negb F64_ceil]. destruct (Z.leb_spec 0 e) as [He|He].
      + exists (Zpos m * 2 ^ e)%Z. split; [exact Q1|]. split; [reflexivity|]. change (fval (S754_finite false m e) = IZR (Z.pos m * 2 ^ e)). rewrite Ev, mult_IZR, <- (IZR_Zpower radix2) by exact He. reflexivity.
      + set (q := (Zpos m / 2 ^ (- e))%Z) in *. exists q. split; [exact Q1|]. assert (q < 2 ^ 32)%Z by (apply lt_IZR; lra).
        destruct (int_as_f64_ok (- q)) as (Vi & Fi & Ei); [lia|]. destruct (fneg_good (int_as_f64 (- q)) (conj Vi Fi)) as ((_ & Fn) & En).
        split; [exact Fn|]. change (fval (neg (int_as_f64 (- q))) = IZR q). rewrite En, Ei, opp_IZR. ring. }
  destruct K as (q & Q & Fq & Eq). assert (Hq : q = Int_part (fval x)).
  { pose proof (Int_part_bounds (fval x)) as B. assert (q < Int_part (fval x) + 1)%Z by (apply lt_IZR; rewrite plus_IZR; lra). assert (Int_part (fval x) < q + 1)%Z by (apply lt_IZR; rewrite plus_IZR; lra). lia. }
  destruct (float_as_int_trunc u32 (tfloor x) eq_refl Fq) as (q' & T & R). rewrite Eq in T. assert (q' = q) by (apply (is_trunc_unique (IZR q)); [exact T|apply is_trunc_int]). subst q'.
  change (as_u32 (tfloor x)) with (float_as_int u32 (tfloor x)). rewrite R, <- Hq. assert (q < 2 ^ 32)%Z by (apply lt_IZR; lra). assert (-1 < q)%Z by (apply lt_IZR; lra).
  change (imin u32) with 0%Z. change (imax u32) with (2 ^ 32 - 1)%Z. lia.
Qed.
Lemma add_zero_val (s : f64) : fgood s -> fgood (add s zero) /\ fval (add s zero) = fval s.
Proof.
  intros (V & F). destruct zero_good as ((Vz & Fz) & Ez).
  assert (R : rnd64 (fval s + fval (zero : f64)) = fval s) by (rewrite Ez, Rplus_0_r; now apply rnd_fval).
  destruct (fadd_round s zero V Vz F Fz) as (E & Fs). { unfold no_overflow. rewrite R. exact (proj1 (fgood_range s (conj V F))). }
  split; [split; [now apply fvalid_add|exact Fs]|]. now rewrite E.
Qed.

Section Libm.
Variables (pw : f64 -> f64 -> f64) (E : EOps f64) (a : R).
Hypotheses (Ha : 0 <= a <= 1000) (HL : libm_acc a pw E).
#[local] Existing Instance E.
#[local] Instance PX : POps f64 := F64_pops pw.
#[local] Notation au := (102 / 100 * (a * uro)).

Lemma powi_near (x y : f64) c X k : fnear c x X -> fgood y -> fval y = INR k -> 0 <= c -> INR k * c <= / 200 -> safe (X ^ k) -> fnear (au + INR k * c) (tpow x y) (X ^ k).
Proof.
  intros N Gy Ey C0 K S. pose proof (proj2 (near_pos _ _ _ (proj2 N))) as X0. rewrite <- Rpower_INR in S by exact X0. rewrite <- Rpower_INR by exact X0.
  eapply fnear_le; [apply (pow_fnear pw E a Ha HL x y c X (INR k) 0 N Gy); [rewrite Ey, Rminus_eq_0, Rabs_R0; lra|exact C0|lra| |exact S]|]; rewrite (Rabs_pos_eq (INR k)) by apply pos_INR; lra.
Qed.

(** ** The binomial distribution *)
Lemma binomial_near n (p : f64) k : (n <= 20)%nat -> (k <= n)%nat -> fgood p -> bpow radix2 (-40) <= fval p <= 1 - bpow radix2 (-40) ->
  exists v, binomial_pmf (binomial_new n p) k = Ret v /\ fnear (204 / 100 * (a * uro) + 23 * uro) v (binomial_law n (fval p) k) /\ bpow radix2 (-810) <= binomial_law n (fval p) k <= 1048576.
Proof.
  intros Hn Hk Gp Hp. pose proof uro_b as U. pose proof (au_b a Ha) as A. pose proof (bpow_gt_0 radix2 (-40)) as B40. pose proof Gp as (Vp & Fp). destruct num1 as ((V1 & F1) & E1).
  destruct (fsub_ok one p V1 Vp F1 Fp) as (Vw & Fw & Ew). { rewrite E1. apply Rabs_le. pose proof big23. lra. } rewrite E1, (Rabs_pos_eq (1 - fval p)) in Ew by lra.
  assert (Nw : fnear (102 / 100 * uro) (sub one p) (1 - fval p)) by (split; [split; assumption|apply near_rel; [lra|lra|exact Ew]]).
  pose proof (pow_40 (fval p) k ltac:(lra) ltac:(lia)) as Pk. pose proof (pow_40 (1 - fval p) (n - k) ltac:(lra) ltac:(lia)) as Pq.
  destruct (of_u_ok k) as (Vk & Fk & Ek); [lia|]. destruct (of_u_ok (n - k)) as (Vd & Fd & Ed); [lia|].
  assert (Hc : (1 <= choose n k <= 2 ^ 20)%nat). { split; [now apply choose_pos|]. eapply Nat.le_trans; [apply choose_le_pow|]. apply Nat.pow_le_mono_r; lia. }
  assert (HcZ : (1 <= Z.of_nat (choose n k) <= 2 ^ 20)%Z). { change (2 ^ 20)%Z with (Z.of_nat 2 ^ Z.of_nat 20)%Z. rewrite <- Nat2Z.inj_pow. lia. } clear Hc.
  destruct (of_u_ok (choose n k)) as (Vc & Fc & Ec); [lia|].
  assert (C1 : 1 <= INR (choose n k) <= 1048576). { rewrite INR_IZR_INZ. split; apply IZR_le; lia. }
  assert (Nc : fnear 0 (of_u (choose n k)) (INR (choose n k))). { rewrite <- Ec. apply exact_near; [split; assumption|lra]. }
  assert (I0 : INR k * 0 <= / 200) by lra. assert (Id : 0 <= INR (n - k) <= 20). { split; [apply pos_INR|]. replace 20 with (INR 20) by (simpl; lra). apply le_INR. lia. }
  assert (Iu : 0 <= INR (n - k) * (102 / 100 * uro) <= 20 * (102 / 100 * uro)) by (split; [apply Rmult_le_pos; lra|apply Rmult_le_compat_r; lra]).
  assert (N1 : fnear (au + INR k * 0) (tpow p (of_u k)) (fval p ^ k)) by (apply powi_near; [apply exact_near; [exact Gp|lra]|split; assumption|exact Ek|lra|exact I0|now apply safe_800]).
  assert (N2 : fnear (au + INR (n - k) * (102 / 100 * uro)) (tpow (sub one p) (of_u (n - k))) ((1 - fval p) ^ (n - k))) by (apply powi_near; [exact Nw|split; assumption|exact Ed|lra|lra|now apply safe_800]).
  assert (B8 : bpow radix2 (-999) <= bpow radix2 (-800)) by (apply bpow_le; lia). pose proof big20 as B20. pose proof (bpow_gt_0 radix2 (-800)) as B80. 
  assert (K1 : bpow radix2 (-800) <= INR (choose n k) * fval p ^ k <= 1048576).
  { split; [apply Rle_trans with (1 * fval p ^ k); [lra|apply Rmult_le_compat_r; lra]|apply Rle_trans with (1048576 * 1); [apply Rmult_le_compat; lra|lra]]. }
  assert (B20' : 1048576 <= bpow radix2 1022). { apply Rle_trans with (bpow radix2 20); [simpl; lra|apply bpow_le; lia]. }
  pose proof (fnear_mul _ _ _ _ _ _ Nc N1 ltac:(lra) ltac:(lra) ltac:(lra) ltac:(lra)) as N3.
  assert (LB : bpow radix2 (-810) <= binomial_law n (fval p) k).
  { unfold binomial_law. pose proof (pow_40z (fval p) k ltac:(lra)) as Z1. pose proof (pow_40z (1 - fval p) (n - k) ltac:(lra)) as Z2.
    apply Rle_trans with (bpow radix2 (-40 * Z.of_nat k) * bpow radix2 (-40 * Z.of_nat (n - k))); [rewrite <- bpow_plus; apply bpow_le; lia|].
    apply Rmult_le_compat; [apply bpow_ge_0|apply bpow_ge_0| |exact (proj1 Z2)]. apply Rle_trans with (1 * fval p ^ k); [lra|apply Rmult_le_compat_r; lra]. }
  assert (UB : binomial_law n (fval p) k <= 1048576).
  { unfold binomial_law. apply Rle_trans with (1048576 * 1); [apply Rmult_le_compat; lra|lra]. }
  assert (B81 : bpow radix2 (-999) <= bpow radix2 (-810)) by (apply bpow_le; lia).
  pose proof (fnear_mul _ _ _ _ _ _ N3 N2 ltac:(lra) ltac:(lra) ltac:(lra) (conj (Rle_trans _ _ _ B81 LB) (Rle_trans _ _ _ UB B20'))) as N4.
  eexists. split; [|split; [eapply fnear_le; [exact N4|lra]|split; [exact LB|exact UB]]].
  unfold binomial_pmf, binomial_new. cbn [bi_n bi_p]. replace (n <? k)%nat with false by (symmetry; apply Nat.ltb_ge; lia).
  rewrite binom_ok by assumption. cbn [bind]. rewrite !as_i32_small by lia. rewrite ichk_i32_small by lia. cbn [bind]. rewrite <- Nat2Z.inj_sub by assumption. reflexivity.
Qed.

Theorem binomial_pmf_f64 n (p : f64) k : (n <= 20)%nat -> (k <= n)%nat -> fgood p -> bpow radix2 (-40) <= fval p <= 1 - bpow radix2 (-40) ->
  exists v, binomial_pmf (binomial_new n p) k = Ret v /\ fgood v /\ Rabs (fval v - binomial_law n (fval p) k) <= (3 * a + 30) * uro * binomial_law n (fval p) k.
Proof.
  intros Hn Hk Gp Hp. pose proof uro_b as U. pose proof (au_b a Ha) as A. destruct (binomial_near n p k Hn Hk Gp Hp) as (v & E1 & (G & N) & B). exists v. split; [exact E1|]. split; [exact G|].
  pose proof (bpow_gt_0 radix2 (-810)). eapply Rle_trans; [eapply rel_near; [|exact N]; lra|]. apply Rmult_le_compat_r; lra.
Qed.
Theorem binomial_cdf_f64 n (p x : f64) : (n <= 20)%nat -> fgood p -> bpow radix2 (-40) <= fval p <= 1 - bpow radix2 (-40) -> fgood x -> 0 <= fval x < IZR (2 ^ 32 - 1) ->
  exists v, binomial_cdf (binomial_new n p) x = Ret v /\ fgood v /\
  Rabs (fval v - prob_le n (binomial_law n (fval p)) (fval x)) <= (3 * a + 50) * uro * prob_le n (binomial_law n (fval p)) (fval x).
Proof.
  intros Hn Gp Hp Gx (H0 & H1). pose proof uro_b as U. pose proof (au_b a Ha) as A. pose proof (bpow_gt_0 radix2 (-810)) as B81.
  set (g := fun k => if (k <=? n)%nat then binomial_law n (fval p) k else 0). set (c0 := 204 / 100 * (a * uro) + 23 * uro). set (w := 103 / 100 * uro).
  assert (W : 0 <= w <= / 1000000) by (unfold w; lra). assert (C0 : 0 <= c0 <= / 1000000) by (unfold c0; lra).
  set (m := Z.to_nat (Int_part (fval x) + 1)). pose proof (Int_part_bounds (fval x)) as B.
  assert (L1 : (-1 < Int_part (fval x))%Z) by (apply lt_IZR; lra). assert (L2 : (Int_part (fval x) < 2 ^ 32 - 1)%Z) by (apply lt_IZR; lra).
  assert (LIM : forall i, (i <= S n)%nat -> 0 <= INR i <= 21). { intros i Hi. split; [apply pos_INR|]. replace 21 with (INR 21) by (simpl; lra). apply le_INR. lia. }
  assert (B99 : bpow radix2 (-999) <= bpow radix2 (-810)) by (apply bpow_le; lia). assert (B100 : bpow radix2 (-1000) <= bpow radix2 (-810)) by (apply bpow_le; lia).
  assert (BT : 30 * 1048576 <= bpow radix2 1022). { apply Rle_trans with (bpow radix2 25); [simpl; lra|apply bpow_le; lia]. }
  destruct (for_loop_ind (fun i s => (i = 0%nat /\ s = zero) \/ ((0 < i)%nat /\ fnear (c0 + INR (Nat.min i (S n)) * w) s (sumn i g) /\ bpow radix2 (-810) <= sumn i g <= INR (Nat.min i (S n)) * 1048576))
    (fun k prob => let! q := binomial_pmf (binomial_new n p) k in Ret (add prob q)) 0 m zero) as (s & Es & Ps).
  - lia.
  - left. split; reflexivity.
  - intros i s Hi Ps. destruct (Nat.leb_spec i n) as [Hin|Hin].
    + destruct (binomial_near n p i Hn Hin Gp Hp) as (v & Ev & Nv & Lv). fold c0 in Nv. exists (add s v). split; [rewrite Ev; reflexivity|]. right. split; [lia|].
      replace (Nat.min (S i) (S n)) with (S i) by lia. pose proof (LIM (S i) ltac:(lia)) as LS. rewrite S_INR in *. cbn [sumn]. replace (g i) with (binomial_law n (fval p) i) by (unfold g; now rewrite (proj2 (Nat.leb_le i n) Hin)).
      change (@add R R_ops) with Rplus. assert (WI : 0 <= INR i * w <= 21 * w) by (pose proof (pos_INR i); split; [apply Rmult_le_pos; lra|apply Rmult_le_compat_r; lra]).
      destruct Ps as [(-> & ->)|(Hi0 & Ns & Bs)].
      * cbn [sumn]. change (@zero R R_ops) with 0. rewrite !Rplus_0_l. cbn [INR]. rewrite ?Rplus_0_l. split; [|lra]. destruct Nv as ((Vv & Fv) & Nv). pose proof (near_range c0 _ _ ltac:(lra) Nv) as Rg.
        destruct zero_good as ((Vz & Fz) & Ez). destruct (fadd_ok zero v Vz Vv Fz Fv) as (Va & Fa & Ea). { rewrite Ez, Rplus_0_l, Rabs_pos_eq by lra. pose proof (bpow_le radix2 1022 1023 ltac:(lia)). lra. }
        rewrite Ez, Rplus_0_l, (Rabs_pos_eq (fval v)) in Ea by lra. split; [split; assumption|]. apply (near_le (102 / 100 * uro + c0)); [|unfold w; lra]. apply (near_trans (102 / 100 * uro) c0 _ (fval v)); [apply (near_rel uro); [lra|lra|exact Ea]|exact Nv].
      * replace (Nat.min i (S n)) with i in Ns, Bs by lia. split; [|lra].
        apply (fnear_le (c0 + INR i * w + 103 / 100 * uro)); [|unfold w; lra]. apply fnear_add; [exact Ns|apply (fnear_le c0); [exact Nv|lra]|lra|]. assert (INR i * 1048576 <= 21 * 1048576) by (apply Rmult_le_compat_r; lra). lra.
    + exists (add s zero). split; [unfold binomial_pmf, binomial_new; cbn [bi_n]; replace (n <? i)%nat with true by (symmetry; apply Nat.ltb_lt; lia); reflexivity|]. right. split; [lia|].
      destruct Ps as [(-> & _)|(Hi0 & (Gs & Ns) & Bs)]; [lia|]. replace (Nat.min (S i) (S n)) with (S n) by lia. replace (Nat.min i (S n)) with (S n) in Ns, Bs by lia.
      cbn [sumn]. replace (g i) with 0 by (unfold g; now rewrite (proj2 (Nat.leb_gt i n) Hin)). change (@add R R_ops) with Rplus. rewrite Rplus_0_r.
      destruct (add_zero_val s Gs) as (Ga & Ea). split; [split; [exact Ga|rewrite Ea; exact Ns]|exact Bs].
  - assert (Hm : (0 < m)%nat) by (unfold m; lia). destruct Ps as [(Hz & _)|(_ & (Gs & Ns) & Bs)]; [lia|].
    assert (EQ : sumn m g = prob_le n (binomial_law n (fval p)) (fval x)).
    { unfold g. rewrite sumn_cut. unfold prob_le. apply sum_to_ext. intros k _. unfold m.
      destruct (Nat.ltb_spec k (Z.to_nat (Int_part (fval x) + 1))) as [Hk|Hk]; destruct (Rle_dec (INR k) (fval x)) as [Hx|Hx]; try reflexivity; exfalso.
      - apply Hx. rewrite INR_IZR_INZ. apply Rle_trans with (IZR (Int_part (fval x))); [apply IZR_le; lia|lra].
      - assert (IZR (Int_part (fval x) + 1) <= INR k) by (rewrite INR_IZR_INZ; apply IZR_le; lia). rewrite plus_IZR in *. lra. }
    rewrite EQ in *. exists s. split; [|split; [exact Gs|]].
    { unfold binomial_cdf. rewrite (floor_val x Gx). 2: { split; [exact H0|]. eapply Rlt_trans; [exact H1|apply IZR_lt; lia]. } rewrite ichk_u32_small by lia. cbn [bind]. exact Es. }
    pose proof (LIM (Nat.min m (S n)) ltac:(lia)) as LM. assert (0 <= INR (Nat.min m (S n)) * w <= 21 * w) by (split; [apply Rmult_le_pos; lra|apply Rmult_le_compat_r; lra]).
    eapply Rle_trans; [eapply rel_near; [|exact Ns]; lra|]. apply Rmult_le_compat_r; [lra|]. unfold c0, w in *. lra.
Qed.

(** ** The Poisson distribution *)
Lemma bpow_nat e k : bpow radix2 e ^ k = bpow radix2 (e * Z.of_nat k).
Proof. induction k as [|k IH]; [now rewrite Z.mul_0_r|]. cbn [pow]. rewrite IH, <- bpow_plus. f_equal. lia. Qed.
Lemma exp_400 g : 0 < g <= 400 -> bpow radix2 (-800) <= exp (- g) <= 1.
Proof.
  intros Hg. split.
  - apply Rle_trans with (exp (- (INR 400 * 1))); [|apply exp_mono; replace (INR 400) with 400 by (rewrite INR_IZR_INZ; reflexivity); lra].
    rewrite exp_Ropp, exp_nat. change (-800)%Z with (- (800))%Z. rewrite bpow_opp. apply Rinv_le_contravar; [apply pow_lt, exp_pos|].
    replace (bpow radix2 800) with (bpow radix2 2 ^ 400) by (rewrite bpow_nat; reflexivity). apply pow_incr. pose proof exp_two. change (bpow radix2 2) with 4. lra.
  - rewrite <- exp_0. apply exp_mono. lra.
Qed.
Lemma fact_bound k : (k <= 20)%nat -> (1 <= Z.of_nat (fact k) <= 2 ^ 62)%Z.
Proof.
  intros H. split; [pose proof (lt_O_fact k); lia|]. apply Z.le_trans with (Z.of_nat (fact 20)); [now apply fact_mono|]. rewrite Zfact_fact. vm_compute. discriminate.
Qed.
Theorem poisson_pmf_f64 (g : f64) k : (k <= 20)%nat -> fgood g -> bpow radix2 (-40) <= fval g <= 400 ->
  exists v, poisson_pmf (mkPoisson g) k = Ret v /\ fgood v /\ Rabs (fval v - poisson_law (fval g) k) <= (3 * a + 10) * uro * poisson_law (fval g) k.
Proof.
  intros Hk Gg Hg. pose proof uro_b as U. pose proof (au_b a Ha) as A. pose proof (bpow_gt_0 radix2 (-40)) as B40.
  destruct (of_u_ok k) as (Vk & Fk & Ek); [lia|]. assert (I0 : INR k * 0 <= / 200) by lra. pose proof (bpow_gt_0 radix2 (-800)) as B80. pose proof (exp_400 (fval g) ltac:(lra)) as XE.
  assert (PU : fval g ^ k <= bpow radix2 180).
  { destruct (Rle_lt_dec (fval g) 1) as [H|H].
    - apply Rle_trans with 1; [apply pow_40z; lra|]. change 1 with (bpow radix2 0). apply bpow_le. lia.
    - apply Rle_trans with (bpow radix2 9 ^ k); [apply pow_incr; change (bpow radix2 9) with 512; lra|]. rewrite bpow_nat. apply bpow_le. lia. }
  assert (PL : bpow radix2 (-800) <= fval g ^ k /\ bpow radix2 (-802) <= fval g ^ k * exp (- fval g)).
  { destruct (Rle_lt_dec (fval g) 1) as [H|H].
    - pose proof (pow_40 (fval g) k ltac:(lra) Hk) as P. split; [exact (proj1 P)|]. change (-802)%Z with (-800 + -2)%Z. rewrite bpow_plus. apply Rmult_le_compat; [lra|apply bpow_ge_0|lra|].
      apply Rle_trans with (exp (- (1))); [|apply exp_mono; lra]. rewrite exp_Ropp. change (bpow radix2 (-2)) with (/ 4). pose proof exp_two. apply Rinv_le_contravar; lra.
    - assert (P1 : 1 <= fval g ^ k) by (apply pow_R1_Rle; lra). assert (bpow radix2 (-800) <= 1) by (change 1 with (bpow radix2 0); apply bpow_le; lia).
      split; [lra|]. apply Rle_trans with (1 * exp (- fval g)); [|apply Rmult_le_compat_r; lra]. assert (bpow radix2 (-802) <= bpow radix2 (-800)) by (apply bpow_le; lia). lra. }
  assert (S1 : safe (fval g ^ k)). { split; [eapply Rle_trans; [|exact (proj1 PL)]; apply bpow_le; lia|eapply Rle_trans; [exact PU|apply bpow_le; lia]]. }
  pose proof (powi_near g (of_u k) 0 (fval g) k (exact_near g Gg ltac:(lra)) (conj Vk Fk) Ek ltac:(lra) I0 S1) as N1.
  destruct (fneg_good g Gg) as (Gn & En). 
  pose proof (exp_fnear pw E a Ha HL (neg g) (- fval g) 0 Gn ltac:(rewrite En, Rminus_eq_0, Rabs_R0; lra) ltac:(lra) ltac:(rewrite Rabs_Ropp, Rabs_pos_eq; lra)) as N2.
  assert (PU2 : fval g ^ k * exp (- fval g) <= bpow radix2 180 * 1). { apply Rmult_le_compat; [lra|lra|exact PU|lra]. } rewrite Rmult_1_r in PU2.
  pose proof (fnear_mul _ _ _ _ _ _ N1 N2 ltac:(lra) ltac:(lra) ltac:(lra) (conj (Rle_trans _ _ _ (bpow_le radix2 (-999) (-802) ltac:(lia)) (proj2 PL)) (Rle_trans _ _ _ PU2 (bpow_le radix2 180 1022 ltac:(lia))))) as N3.
  pose proof (fact_bound k Hk) as FB. assert (F1 : 1 <= INR (fact k) <= bpow radix2 62). { rewrite INR_IZR_INZ, <- (IZR_Zpower radix2) by lia. split; apply IZR_le; [exact (proj1 FB)|exact (proj2 FB)]. }
  assert (Nf : fnear (103 / 100 * uro) (of_int (Z.of_nat (fact k))) (INR (fact k))).
  { assert (AF : Rabs (IZR (Z.of_nat (fact k))) <= bpow radix2 1023). { rewrite <- INR_IZR_INZ, Rabs_pos_eq by lra. eapply Rle_trans; [exact (proj2 F1)|apply bpow_le; lia]. }
    destruct (int_round (Z.of_nat (fact k)) (no_ov _ AF)) as (V & F & Ei). split; [split; assumption|]. apply round_near.
    - apply Rle_trans with 1; [change 1 with (bpow radix2 0); apply bpow_le; lia|lra].
    - change (of_int (Z.of_nat (fact k))) with (int_as_f64 (Z.of_nat (fact k))). unfold int_as_f64. cbv zeta in Ei. rewrite Ei, <- INR_IZR_INZ. eapply Rle_trans; [apply rnd_err1|]. rewrite Rabs_pos_eq by lra. lra. }
  assert (DL : bpow radix2 (-864) <= fval g ^ k * exp (- fval g) / INR (fact k) <= bpow radix2 180).
  { split.
    - change (-864)%Z with (-802 + - (62))%Z. rewrite bpow_plus, bpow_opp. unfold Rdiv. apply Rmult_le_compat; [apply bpow_ge_0|left; apply Rinv_0_lt_compat, bpow_gt_0|exact (proj2 PL)|apply Rinv_le_contravar; lra].
    - apply Rle_trans with (bpow radix2 180 * 1); [|lra]. unfold Rdiv. apply Rmult_le_compat; [pose proof (bpow_gt_0 radix2 (-802)); lra|left; apply Rinv_0_lt_compat; lra|exact PU2|]. rewrite <- Rinv_1. apply Rinv_le_contravar; lra. }
  pose proof (fnear_div _ _ _ _ _ _ N3 Nf ltac:(lra) ltac:(lra) ltac:(lra) (conj (Rle_trans _ _ _ (bpow_le radix2 (-999) (-864) ltac:(lia)) (proj1 DL)) (Rle_trans _ _ _ (proj2 DL) (bpow_le radix2 180 1022 ltac:(lia))))) as (Gr & Nr).
  assert (EQ : fval g ^ k * exp (- fval g) / INR (fact k) = poisson_law (fval g) k) by (unfold poisson_law; field; lra). rewrite EQ in *.
  eexists. split; [|split; [exact Gr|]].
  { unfold poisson_pmf. rewrite (factorial_ok k Hk). reflexivity. }
  pose proof (bpow_gt_0 radix2 (-864)). eapply Rle_trans; [eapply rel_near; [|exact Nr]; lra|]. apply Rmult_le_compat_r; lra.
Qed.
End Libm.
