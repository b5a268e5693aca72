(** Proofs about integer traits, conversions and scalar approximate equality. *)
From Coq Require Import ZArith Reals Lra Lia Bool SpecFloat.
From Flocq Require Import Core IEEE754.BinarySingleNaN.
From Verif Require Import Outcome Scalar Approx_model Int_model Int_spec F64Flocq Elem_proofs Ortho_proofs ComplexFun_proofs.
Local Open Scope Z_scope.

Lemma in_ity_iff t z : in_ity t z <-> imin t <= z <= imax t.
Proof. unfold in_ity, imin, imax. destruct (isigned t); lia. Qed.
Lemma ichk_ok t z : in_ity t z -> ichk t z = Ret z.
Proof. rewrite in_ity_iff. unfold ichk. intros H. rewrite (proj2 (Z.leb_le _ _)), (proj2 (Z.leb_le _ _)) by lia. reflexivity. Qed.
Lemma ichk_bad t z : ~ in_ity t z -> ichk t z = Panic.
Proof. rewrite in_ity_iff. unfold ichk. intros H. destruct (imin t <=? z) eqn:E1; destruct (z <=? imax t) eqn:E2; try reflexivity. exfalso. apply H. lia. Qed.
Lemma ichk_inv t z r : ichk t z = Ret r -> r = z /\ in_ity t z.
Proof. rewrite in_ity_iff. unfold ichk. destruct (imin t <=? z) eqn:E1; destruct (z <=? imax t) eqn:E2; try discriminate. intros H. injection H as <-. lia. Qed.

Lemma isign_ok n : isign n = Z.sgn n.
Proof. unfold isign. destruct (n >? 0) eqn:E1; [lia|]. destruct (n >=? 0) eqn:E2; destruct (n <=? 0) eqn:E3; cbn [andb]; lia. Qed.
Lemma iabs_ok t n : in_ity t n -> (isigned t = true -> 0 < iwidth t) -> n <> imin t \/ isigned t = false -> iabs t n = Ret (Z.abs n).
Proof.
  intros Hr Hw Hn. unfold iabs, iis_negative. destruct (n <? 0) eqn:E; [|rewrite Z.abs_eq by lia; reflexivity].
  rewrite ichk_ok; [rewrite Z.abs_neq by lia; reflexivity|]. rewrite ?in_ity_iff in *. unfold imin, imax in *. destruct (isigned t); [|lia]. destruct Hn as [Hn|Hn]; [|discriminate]. lia.
Qed.
Lemma iabs_min t : isigned t = true -> 0 < iwidth t -> iabs t (imin t) = Panic.
Proof.
  intros Hs Hw. unfold iabs, iis_negative. assert (Hp : 0 < 2 ^ (iwidth t - 1)) by (apply Z.pow_pos_nonneg; lia).
  rewrite (proj2 (Z.ltb_lt _ _)) by (unfold imin; rewrite Hs; lia). apply ichk_bad. rewrite in_ity_iff. unfold imin, imax. rewrite Hs. lia.
Qed.
Lemma uabs_diff t a b eps : isigned t = false -> in_ity t a -> in_ity t b -> uabs_diff_eq t a b eps = Ret (Z.abs (a - b) <=? eps).
Proof.
  intros Hs Ha Hb. unfold uabs_diff_eq. assert (H : forall z, 0 <= z <= imax t -> ichk t z = Ret z) by (intros z Hz; apply ichk_ok; rewrite in_ity_iff; unfold imin; rewrite Hs; exact Hz).
  rewrite in_ity_iff in Ha, Hb. unfold imin in Ha, Hb. rewrite Hs in Ha, Hb.
  destruct (a >? b) eqn:E; rewrite H by lia; cbn [bind]; do 2 f_equal; lia.
Qed.
Lemma iabs_diff t a b eps : isigned t = true -> 0 < iwidth t ->
  (imin t < a - b <= imax t -> iabs_diff_eq t a b eps = Ret (Z.abs (a - b) <=? eps)) /\
  (a - b <= imin t \/ imax t < a - b -> iabs_diff_eq t a b eps = Panic).
Proof.
  intros Hs Hw. unfold iabs_diff_eq. split; intros H.
  - rewrite ichk_ok by (rewrite in_ity_iff; lia). cbn [bind]. unfold sint_abs.
    destruct (a - b <? 0) eqn:E.
    + rewrite ichk_ok. * cbn [bind]. do 2 f_equal. lia. * rewrite ?in_ity_iff in *. unfold imin, imax in *. rewrite Hs in *. lia.
    + cbn [bind]. do 2 f_equal. lia.
  - destruct (Z.eq_dec (a - b) (imin t)) as [E|E].
    + rewrite ichk_ok. * cbn [bind]. rewrite E. unfold sint_abs. pose proof (iabs_min t Hs Hw) as Hm. unfold iabs, iis_negative in Hm. rewrite Hm. reflexivity.
      * rewrite ?in_ity_iff in *. unfold imin, imax in *. rewrite Hs in *. assert (0 < 2 ^ (iwidth t - 1)) by (apply Z.pow_pos_nonneg; lia). lia.
    + rewrite ichk_bad; [reflexivity|]. rewrite in_ity_iff. lia.
Qed.

Lemma pow_split w : 0 < w -> 2 ^ w = 2 * 2 ^ (w - 1).
Proof. intros H. rewrite <- Z.pow_succ_r by lia. f_equal. lia. Qed.
Lemma as_int_ok t z : 0 < iwidth t ->
  in_ity t (as_int t z) /\ (as_int t z) mod 2 ^ iwidth t = z mod 2 ^ iwidth t /\ (as_int t z = z <-> in_ity t z).
Proof.
  intros Hw. set (w := iwidth t) in *. assert (Hp : 0 < 2 ^ (w - 1)) by (apply Z.pow_pos_nonneg; lia). pose proof (pow_split w Hw) as H2.
  assert (Hr : 0 <= z mod 2 ^ w < 2 ^ w) by (apply Z.mod_pos_bound; lia).
  assert (A : in_ity t (as_int t z)).
  { rewrite in_ity_iff. unfold imin, imax, as_int. fold w. destruct (isigned t); cbn [andb]; [|lia]. destruct (2 ^ (w - 1) <=? z mod 2 ^ w) eqn:E; lia. }
  assert (B : (as_int t z) mod 2 ^ w = z mod 2 ^ w).
  { unfold as_int. fold w. destruct (isigned t && (2 ^ (w - 1) <=? z mod 2 ^ w)).
    - replace (z mod 2 ^ w - 2 ^ w) with (z mod 2 ^ w + (-1) * 2 ^ w) by ring. rewrite Z.mod_add by lia. apply Z.mod_mod. lia.
    - apply Z.mod_mod. lia. }
  split; [exact A|]. split; [exact B|]. split; [intros E; rewrite <- E; exact A|].
  intros Hz. rewrite in_ity_iff in Hz. unfold imin, imax in Hz. unfold as_int. fold w in Hz |- *.
  destruct (isigned t); cbn [andb].
  - destruct (Z_lt_le_dec z 0) as [Hn|Hn].
    + assert (E : z mod 2 ^ w = z + 2 ^ w). { rewrite <- (Z.mod_small (z + 2 ^ w) (2 ^ w)) by lia. replace (z + 2 ^ w) with (z + 1 * 2 ^ w) by ring. rewrite Z.mod_add by lia. reflexivity. }
      rewrite E. rewrite (proj2 (Z.leb_le _ _)) by lia. lia.
    + rewrite Z.mod_small by lia. destruct (2 ^ (w - 1) <=? z) eqn:E; lia.
  - apply Z.mod_small. lia.
Qed.
Lemma as_int_unique t z r : 0 < iwidth t -> in_ity t r -> r mod 2 ^ iwidth t = z mod 2 ^ iwidth t -> r = as_int t z.
Proof.
  intros Hw Hr Hm. destruct (as_int_ok t r Hw) as (_ & _ & H). apply (proj2 H) in Hr. rewrite <- Hr. unfold as_int. rewrite Hm. reflexivity.
Qed.
Lemma mod_mod_div z a b : 0 < a -> 0 < b -> (z mod (a * b)) mod a = z mod a.
Proof. intros Ha Hb. rewrite Z.rem_mul_r by lia. rewrite (Z.mul_comm a), Z.mod_add by lia. apply Z.mod_mod. lia. Qed.
Lemma to_via64_ok t z : 0 < iwidth t <= 64 -> to_via64 t z = as_int t z.
Proof.
  intros Hw. set (u := if isigned t then i64 else u64). assert (Hu : iwidth u = 64) by (unfold u; destruct (isigned t); reflexivity).
  unfold to_via64. fold u. apply as_int_unique; [lia|exact (proj1 (as_int_ok t _ ltac:(lia)))|].
  destruct (as_int_ok t (as_int u z) ltac:(lia)) as (_ & H1 & _). rewrite H1.
  destruct (as_int_ok u z ltac:(lia)) as (_ & H2 & _). rewrite Hu in H2.
  assert (E : 2 ^ 64 = 2 ^ iwidth t * 2 ^ (64 - iwidth t)) by (rewrite <- Z.pow_add_r by lia; f_equal; lia).
  rewrite E in H2. assert (Ha : 0 < 2 ^ iwidth t) by (apply Z.pow_pos_nonneg; lia). assert (Hb : 0 < 2 ^ (64 - iwidth t)) by (apply Z.pow_pos_nonneg; lia).
  rewrite <- (mod_mod_div (as_int u z) _ _ Ha Hb), H2. apply mod_mod_div; assumption.
Qed.

(** Float to integer. *)
Lemma bpow_neg e : 0 <= e -> (bpow radix2 (- e) * IZR (2 ^ e) = 1)%R.
Proof. intros H. replace (IZR (2 ^ e)) with (bpow radix2 e) by (rewrite (IZR_Zpower radix2) || (symmetry; apply (IZR_Zpower radix2)); trivial; lia). rewrite <- bpow_plus. replace (- e + e) with 0 by lia. reflexivity. Qed.


Lemma trunc_mag (m : positive) (e : Z) : let a := if 0 <=? e then Zpos m * 2 ^ e else Zpos m / 2 ^ (- e) in
  0 <= a /\ (IZR a <= IZR (Zpos m) * bpow radix2 e < IZR a + 1)%R.
Proof.
  cbv zeta. destruct (0 <=? e) eqn:E.
  - assert (Hp : 0 < 2 ^ e) by (apply Z.pow_pos_nonneg; lia). split; [lia|]. rewrite mult_IZR. rewrite (IZR_Zpower radix2) by lia. lra.
  - set (k := - e). assert (Hk : 0 <= k) by lia. replace e with (- k) by lia.
    assert (Hp : 0 < 2 ^ k) by (apply Z.pow_pos_nonneg; lia).
    pose proof (Z.div_mod (Zpos m) (2 ^ k) ltac:(lia)) as Hd. pose proof (Z.mod_pos_bound (Zpos m) (2 ^ k) Hp) as Hm. set (q := Zpos m / 2 ^ k) in *. set (r := Zpos m mod 2 ^ k) in *.
    split; [apply Z.div_pos; lia|]. assert (Hv : IZR (Zpos m) = (IZR q * IZR (2 ^ k) + IZR r)%R) by (rewrite Hd, plus_IZR, mult_IZR; ring).
    pose proof (bpow_neg k Hk) as Hb. pose proof (bpow_gt_0 radix2 (- k)) as Hg. rewrite Hv.
    assert (H0 : (0 <= IZR r)%R) by (apply IZR_le; lia). assert (H1 : (IZR r < IZR (2 ^ k))%R) by (apply IZR_lt; lia).
    replace ((IZR q * IZR (2 ^ k) + IZR r) * bpow radix2 (- k))%R with (IZR q + IZR r * bpow radix2 (- k))%R.
    + split; [nra|]. apply Rplus_lt_compat_l. rewrite <- Hb. rewrite (Rmult_comm (bpow radix2 (- k))). apply Rmult_lt_compat_r; assumption.
    + rewrite Rmult_plus_distr_r, Rmult_assoc, (Rmult_comm (IZR (2 ^ k))), Hb. ring.
Qed.
Lemma ity_bounds t : 0 < iwidth t -> imin t <= 0 <= imax t.
Proof.
  intros H. unfold imin, imax. assert (0 < 2 ^ iwidth t) by (apply Z.pow_pos_nonneg; lia). assert (0 < 2 ^ (iwidth t - 1)) by (apply Z.pow_pos_nonneg; lia).
  destruct (isigned t); lia.
Qed.
Lemma float_as_int_trunc t x : 0 < iwidth t -> ffin x = true -> exists q, is_trunc (fval x) q /\ float_as_int t x = Z.max (imin t) (Z.min (imax t) q).
Proof.
  intros Hw Hf. pose proof (ity_bounds t Hw). destruct x as [s|s| |s m e]; try discriminate.
  - exists 0. split; [|cbn [float_as_int]; lia].
    unfold is_trunc, fval, SF2R. rewrite Rabs_R0. split; lra.
  - destruct (trunc_mag m e) as [Ha Hv]. cbn [float_as_int]. set (a := if 0 <=? e then _ else _) in *.
    exists (if s then - a else a). split; [|reflexivity].
    unfold is_trunc, fval, SF2R, F2R. cbn [Fnum Fexp]. assert (Hp : (0 < IZR (Zpos m) * bpow radix2 e)%R) by (apply Rmult_lt_0_compat; [apply IZR_lt; lia|apply bpow_gt_0]).
    assert (Ha' : (0 <= IZR a)%R) by (apply IZR_le; exact Ha).
    destruct s; cbn [cond_Zopp].
    + rewrite opp_IZR. change (Z.neg m) with (- Z.pos m) in *. rewrite ?opp_IZR. rewrite <- Ropp_mult_distr_l, !Rabs_Ropp. rewrite !Rabs_pos_eq by lra. split; [exact Hv|]. replace (- (IZR (Z.pos m) * bpow radix2 e) * - IZR a)%R with ((IZR (Z.pos m) * bpow radix2 e) * IZR a)%R by ring. apply Rmult_le_pos; lra.
    + rewrite !Rabs_pos_eq by lra. split; [exact Hv|]. apply Rmult_le_pos; lra.
Qed.
Lemma is_trunc_unique v p q : is_trunc v p -> is_trunc v q -> p = q.
Proof.
  unfold is_trunc. rewrite <- !abs_IZR. intros [[H1 H2] H3] [[H4 H5] H6].
  assert (E : Z.abs p = Z.abs q).
  { assert (Z.abs p < Z.abs q + 1) by (apply lt_IZR; rewrite plus_IZR; lra). assert (Z.abs q < Z.abs p + 1) by (apply lt_IZR; rewrite plus_IZR; lra). lia. }
  destruct (Z.eq_dec p 0) as [Hp|Hp]; [lia|]. assert (Hq : q <> 0) by lia.
  assert (Hv : v <> 0%R). { intro Ev. rewrite Ev, Rabs_R0 in H1. assert (Z.abs p <= 0) by (apply le_IZR; exact H1). lia. }
  destruct (Z.abs_spec p) as [[? ?]|[? ?]], (Z.abs_spec q) as [[? ?]|[? ?]]; try lia; exfalso.
  - assert (0 < IZR p)%R by (apply IZR_lt; lia). assert (IZR q < 0)%R by (apply IZR_lt; lia). nra.
  - assert (IZR p < 0)%R by (apply IZR_lt; lia). assert (0 < IZR q)%R by (apply IZR_lt; lia). nra.
Qed.
Lemma is_trunc_int z : is_trunc (IZR z) z.
Proof. unfold is_trunc. split; [lra|]. pose proof (Rle_0_sqr (IZR z)) as H. unfold Rsqr in H. exact H. Qed.

(** Integer to float. *)
Lemma int_small_exact z : Z.abs z <= 2 ^ 53 -> rnd64 (IZR z) = IZR z.
Proof.
  intros H. apply round_generic; [apply valid_rnd_N|]. apply generic_format_FLT.
  destruct (Z.eq_dec (Z.abs z) (2 ^ 53)) as [E|E].
  - exists (Float radix2 (if z <? 0 then -1 else 1) 53); cbn [Fnum Fexp].
    + unfold F2R. cbn [Fnum Fexp]. assert (Hb : bpow radix2 53 = IZR (2 ^ 53)) by (symmetry; apply (IZR_Zpower radix2); lia). rewrite Hb, <- mult_IZR. f_equal. destruct (z <? 0) eqn:Ez; lia.
    + destruct (z <? 0); reflexivity.
    + lia.
  - exists (Float radix2 z 0); cbn [Fnum Fexp].
    + unfold F2R. cbn. ring.
    + change (radix_val radix2 ^ 53) with (2 ^ 53). lia.
    + lia.
Qed.
Lemma int_as_f64_ok z : Z.abs z <= 2 ^ 53 -> fvalid (int_as_f64 z) /\ ffin (int_as_f64 z) = true /\ fval (int_as_f64 z) = IZR z.
Proof.
  intros H. pose proof (int_small_exact z H) as E. rewrite <- E. apply int_round. unfold no_overflow. rewrite E, <- abs_IZR.
  apply Rle_lt_trans with (IZR (2 ^ 53)); [apply IZR_le; exact H|]. rewrite (IZR_Zpower radix2) by lia. apply bpow_lt. lia.
Qed.
Lemma int_as_f64_nearest z : Z.abs z < 2 ^ 1023 -> ffin (int_as_f64 z) = true /\ fval (int_as_f64 z) = rnd64 (IZR z).
Proof.
  intros H. apply int_round. unfold no_overflow.
  apply Rle_lt_trans with (bpow radix2 1023).
  - apply abs_round_le_generic; [apply FLT_exp_valid; reflexivity|apply valid_rnd_N| |].
    + apply generic_format_bpow. cbn. lia.
    + rewrite <- abs_IZR. rewrite <- (IZR_Zpower radix2) by lia. apply IZR_le. apply Z.lt_le_incl. exact H.
  - apply bpow_lt. lia.
Qed.
Lemma int_float_roundtrip t z : 0 < iwidth t -> in_ity t z -> Z.abs z <= 2 ^ 53 -> float_as_int t (int_as_f64 z) = z.
Proof.
  intros Hw Hi H. destruct (int_as_f64_ok z H) as (_ & Hf & Hv). destruct (float_as_int_trunc t _ Hw Hf) as (q & Hq & E).
  rewrite Hv in Hq. assert (q = z) by (apply (is_trunc_unique (IZR z)); [exact Hq|apply is_trunc_int]). subst q. rewrite E. rewrite in_ity_iff in Hi. lia.
Qed.

Lemma iabs_diff_both (w a b eps : Z) : 0 < w -> let t := mkIty true w in
  (Z.abs (a - b) < 2 ^ (w - 1) -> iabs_diff_eq t a b eps = Ret (Z.abs (a - b) <=? eps)) /\
  (2 ^ (w - 1) <= Z.abs (a - b) -> iabs_diff_eq t a b eps = Panic).
Proof.
  intros Hw t. destruct (iabs_diff t a b eps eq_refl Hw) as [H1 H2]. unfold t in *. cbn [imin imax isigned iwidth] in *. unfold imin, imax in *. cbn [isigned iwidth] in *.
  split; intros H; [apply H1|apply H2]; lia.
Qed.
Lemma float_as_int_cases (t : ity) (x : f64) : 0 < iwidth t -> ffin x = true ->
  exists q, is_trunc (fval x) q /\
    (in_ity t q -> float_as_int t x = q) /\ (q < imin t -> float_as_int t x = imin t) /\ (imax t < q -> float_as_int t x = imax t).
Proof.
  intros Hw Hf. destruct (float_as_int_trunc t x Hw Hf) as (q & Hq & E). exists q. split; [exact Hq|]. rewrite E. rewrite in_ity_iff. pose proof (ity_bounds t Hw). repeat split; lia.
Qed.

Lemma float_signs : (forall x : R, (fis_positive x = true <-> 0 < x)%R /\ (fis_negative x = true <-> x < 0)%R) /\
  (forall x : f64, (fis_positive x = true <-> x = S754_infinity false \/ exists m e, x = S754_finite false m e) /\
                   (fis_negative x = true <-> x = S754_infinity true \/ exists m e, x = S754_finite true m e)).
Proof.
  split; intros x.
  - unfold fis_positive, fis_negative. split; apply R_ltb_true.
  - destruct x as [[]|[]| |[] m e]; split; cbv; split; try discriminate; eauto;
      intros [H|(m' & e' & H)]; try discriminate; reflexivity.
Qed.
