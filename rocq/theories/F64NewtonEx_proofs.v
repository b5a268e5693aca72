(** x^2 = 2 in binary64. *)
From Coq Require Import ZArith Arith Reals Lra Lia List Bool SpecFloat Psatz.
From Flocq Require Import Core IEEE754.BinarySingleNaN.
From Verif Require Import Outcome Scalar RealOps Matrix_model Vector_model LU_model Decomp_model Ode_model Optim_model
  F64_spec F64Cplx_spec F64Newton_spec F64Flocq F64Err_proofs F64Grid_proofs F64Chol_proofs F64Newton_proofs OptimEx_proofs.
Import ListNotations.
Local Open Scope R_scope.

Lemma fsqrt_ok x : fgood x -> 0 <= fval x -> fgood (SFsqrt 53 1024 x) /\ 0 <= fval (SFsqrt 53 1024 x) /\
  Rabs (fval (SFsqrt 53 1024 x) ^ 2 - fval x) <= gam 2 * fval (SFsqrt 53 1024 x) ^ 2.
Proof.
  intros (V & F) H. destruct (sqrt_acc_ieee x V) as (Vs & Hs).
  assert (Fs : ffin (SFsqrt 53 1024 x) = true /\ 0 <= fval (SFsqrt 53 1024 x)).
  { rewrite <- (B2SF_toB x V) in *. rewrite SFsqrt_equiv in *. rewrite ffin_B in *. rewrite fval_B in *.
    destruct (Bsqrt_correct 53 1024 Hprec53 Hmax53 mode_NE (toB x V)) as (E & Ff & _). rewrite rnd_eq in E. set (b := toB x V) in *. clearbody b. split.
    - rewrite Ff. destruct b as [| | |s m e Be]; try discriminate; [reflexivity|]. destruct s; [|reflexivity].
      exfalso. assert (B2R (B754_finite true m e Be) < 0); [|lra]. apply F2R_lt_0. reflexivity.
    - rewrite E. apply round_ge_generic; [typeclasses eauto..|apply generic_format_0|apply sqrt_pos]. }
  destruct Fs as (Fs & S0). split; [split; assumption|]. split; [exact S0|]. apply Hs, Fs.
Qed.

(** powf(x, 2) as the rounded product, every other power as the correctly rounded square root *)
Definition root_pow (x y : f64) : f64 := if SFeqb y (@two f64 (F64_pops (fun a _ => a))) then mul x x else SFsqrt 53 1024 x.

Lemma root_usable : length_usable root_pow (bpow radix2 500) (bpow radix2 (-500)).
Proof.
  intros a (Va & Fa) HA. cbv zeta. change (root_pow a (@two f64 (F64_pops root_pow))) with (mul a a).
  change (root_pow (add zero (mul a a)) (div one (@two f64 (F64_pops root_pow)))) with (SFsqrt 53 1024 (add zero (mul a a))).
  set (x := fval a) in *. pose proof (Rabs_pos x) as X0.
  assert (XX : Rabs (x * x) <= bpow radix2 1000). { rewrite Rabs_mult. change 1000%Z with (500 + 500)%Z. rewrite bpow_plus. apply Rmult_le_compat; assumption. }
  assert (B23 : 2 * bpow radix2 1000 <= bpow radix2 1023). { change 2 with (bpow radix2 1). rewrite <- bpow_plus. apply bpow_le. lia. }
  pose proof (bpow_gt_0 radix2 1000) as BP.
  destruct (fmul_round a a Va Va Fa Fa) as (M1 & M2). { apply no_ov. fold x. lra. }
  destruct (fmul_err a a Va Va M2) as (_ & _ & ME & _). pose proof (fvalid_mul a a Va Va) as Vm. fold x in ME. set (s := mul a a) in *.
  assert (S0 : 0 <= fval s). { rewrite M1. apply round_ge_generic; [typeclasses eauto..|apply generic_format_0|]. fold x. apply Rle_0_sqr. }
  assert (Zs : fgood (add zero s) /\ fval (add zero s) = fval s).
  { assert (Vz : fvalid (zero : f64)) by reflexivity. destruct (fadd_round zero s Vz Vm eq_refl M2) as (A1 & A2).
    - unfold no_overflow. change (fval zero) with 0. rewrite Rplus_0_l, rnd_fval by exact Vm. rewrite <- (B2SF_toB s Vm), fval_B. apply abs_B2R_lt_emax.
    - split; [split; [now apply fvalid_add|exact A2]|]. rewrite A1. change (fval zero) with 0. rewrite Rplus_0_l. now apply rnd_fval. }
  destruct Zs as (Gz & Ez). destruct (fsqrt_ok _ Gz) as (G & T0 & TE). { rewrite Ez. exact S0. }
  rewrite Ez in TE. set (t := fval (SFsqrt 53 1024 (add zero s))) in *. split; [exact G|].
  pose proof uro_val as UV. assert (G2 : gam 2 <= / 1024). { unfold gam. rewrite UV. lra. } assert (G2p : 0 <= gam 2) by apply gam_pos.
  assert (U1 : 0 < uro <= / 1024) by (split; [apply uro_pos|rewrite UV; lra]).
  set (th := bpow radix2 (-500)) in *. assert (TH : 0 < th) by apply bpow_gt_0.
  assert (ET : 1024 * eta64 <= th * th). { unfold th, eta64. rewrite <- bpow_plus. change 1024 with (bpow radix2 10). rewrite <- bpow_plus. apply bpow_le. lia. }
  pose proof eta64_pos as E0. set (y := Rabs x) in *. assert (YY : x * x = y * y) by (unfold y; rewrite <- Rabs_mult, Rabs_pos_eq; [reflexivity|apply Rle_0_sqr]).
  rewrite YY in ME. rewrite (Rabs_pos_eq (y * y)) in ME by (apply Rmult_le_pos; assumption).
  assert (UY : uro * (y * y) <= / 1024 * (y * y)) by (apply Rmult_le_compat_r; [apply Rmult_le_pos; assumption|lra]).
  assert (Y2 : 0 <= y * y) by (apply Rmult_le_pos; assumption).
  assert (T2 : gam 2 * t ^ 2 <= / 1024 * t ^ 2) by (apply Rmult_le_compat_r; [apply pow2_ge_0|exact G2]).
  apply Rabs_le_inv in ME. apply Rabs_le_inv in TE. split.
  - destruct (Rle_lt_dec (y / 2 - th) 0) as [N|N]; [lra|]. apply Rsqr_incr_0_var; [|exact T0]. unfold Rsqr.
    assert (th * th <= y / 2 * (y / 2)) by (apply Rmult_le_compat; lra).
    assert ((y / 2 - th) * (y / 2 - th) <= y / 2 * (y / 2)) by (apply Rmult_le_compat; lra). cbn [pow] in *. lra.
  - apply Rsqr_incr_0_var; [|lra]. unfold Rsqr. assert (0 <= y * th) by (apply Rmult_le_pos; lra). cbn [pow] in *. nra.
Qed.
Lemma usable_less pw B B' th : B' <= B -> length_usable pw B th -> length_usable pw B' th.
Proof. intros H HU a Ga Ha. apply HU; [exact Ga|]. lra. Qed.

Definition root2_func (x : vector f64) : outcome (vector f64) := let! a := vvget x 0 in Ret (mkMatrix 1 1 [sub (mul a a) (of_Z 2)]).
Definition root2_jac (x : vector f64) : outcome (matrix f64) := let! a := vvget x 0 in Ret (mkMatrix 1 1 [mul (of_Z 2) a]).

Lemma sqrt2_bounds : 14142 / 10000 <= sqrt 2 <= 14143 / 10000.
Proof.
  split; [rewrite <- (sqrt_Rsqr (14142 / 10000)) by lra|rewrite <- (sqrt_Rsqr (14143 / 10000)) by lra]; apply sqrt_le_1_alt; unfold Rsqr; lra.
Qed.
Lemma near_2 x : Rabs (x - sqrt 2) <= 1 / 4 -> 1 <= x <= 2.
Proof. intros H. apply Rabs_le_inv in H. pose proof sqrt2_bounds. lra. Qed.
Lemma two_good : fgood (of_Z 2 : f64) /\ fval (of_Z 2 : f64) = 2.
Proof. split; [split; reflexivity|]. unfold fval, SF2R, F2R. cbn. lra. Qed.

Lemma root2_evaluates : evaluates_near root2_func (fun x => x * x - 2) (sqrt 2) (1 / 4) (/ 2 ^ 50).
Proof.
  intros a (Va & Fa) H. apply near_2 in H. exists (sub (mul a a) (of_Z 2)). split; [reflexivity|]. set (x := fval a) in *. destruct two_good as ((V2 & F2) & E2).
  assert (B10 : 16 <= bpow radix2 1023). { change 16 with (bpow radix2 4). apply bpow_le. lia. }
  assert (X2 : 1 <= x * x <= 4) by nra.
  destruct (fmul_round a a Va Va Fa Fa) as (M1 & M2). { apply no_ov. fold x. rewrite Rabs_pos_eq; lra. }
  destruct (fmul_err a a Va Va M2) as (_ & _ & ME & _). pose proof (fvalid_mul a a Va Va) as Vm. fold x in ME. set (s := mul a a) in *.
  rewrite (Rabs_pos_eq (x * x)) in ME by lra. pose proof uro_val as UV. assert (ET : eta64 <= / 2 ^ 53). { unfold eta64. change (/ 2 ^ 53) with (/ (2 ^ 53)). replace (/ 2 ^ 53) with (bpow radix2 (-53)) by (change (bpow radix2 (-53)) with uro; rewrite UV; lra). apply bpow_le. lia. }
  assert (UU : uro * (x * x) <= uro * 4) by (apply Rmult_le_compat_l; [rewrite UV; lra|lra]). pose proof ME as ME'. apply Rabs_le_inv in ME'.
  destruct (fsub_round s (of_Z 2) Vm V2 M2 F2) as (S1 & S2). { apply no_ov. rewrite E2. apply Rabs_le. rewrite UV in UU, ME'. lra. }
  destruct (fsub_err s (of_Z 2) Vm V2 S2) as (_ & _ & SE & _). rewrite E2 in SE.
  split; [split; [now apply fvalid_sub|exact S2]|]. set (d := sub s (of_Z 2)) in *.
  assert (A1 : Rabs (fval s - 2) <= 3) by (apply Rabs_le; rewrite UV in UU, ME'; lra).
  assert (A2 : uro * Rabs (fval s - 2) <= uro * 3) by (apply Rmult_le_compat_l; [rewrite UV; lra|exact A1]).
  replace (fval d - (x * x - 2)) with ((fval d - (fval s - 2)) + (fval s - x * x)) by ring. eapply Rle_trans; [apply Rabs_triang|]. rewrite UV in *. lra.
Qed.
Lemma root2_jac_evaluates : evaluates_near root2_jac (fun x => 2 * x) (sqrt 2) (1 / 4) (/ 2 ^ 50).
Proof.
  intros a (Va & Fa) H. apply near_2 in H. exists (mul (of_Z 2) a). split; [reflexivity|]. set (x := fval a) in *. destruct two_good as ((V2 & F2) & E2).
  assert (B10 : 16 <= bpow radix2 1023). { change 16 with (bpow radix2 4). apply bpow_le. lia. }
  destruct (fmul_round (of_Z 2) a V2 Va F2 Fa) as (M1 & M2). { apply no_ov. fold x. rewrite E2, Rabs_pos_eq; lra. }
  destruct (fmul_err (of_Z 2) a V2 Va M2) as (_ & _ & ME & _). fold x in ME. rewrite E2 in ME. split; [split; [now apply fvalid_mul|exact M2]|].
  rewrite (Rabs_pos_eq (2 * x)) in ME by lra. pose proof uro_val as UV. assert (ET : eta64 <= / 2 ^ 53). { unfold eta64. replace (/ 2 ^ 53) with (bpow radix2 (-53)) by (change (bpow radix2 (-53)) with uro; rewrite UV; lra). apply bpow_le. lia. }
  rewrite UV in ME. lra.
Qed.
Lemma root2_regular : regular_root (fun x => x * x - 2) (fun x => 2 * x) (sqrt 2) (1 / 4) 2 1.
Proof.
  intros x H. apply near_2 in H. split; [rewrite Rabs_pos_eq; lra|]. pose proof (sqrt_sqrt 2 ltac:(lra)).
  replace (x * x - 2 - 2 * x * (x - sqrt 2)) with (- (x - sqrt 2) ^ 2) by (cbn [pow]; lra). rewrite Rabs_Ropp, Rabs_pos_eq by apply pow2_ge_0. lra.
Qed.

(** 3/2 and 2^-40 *)
Definition f_3_2 : f64 := S754_finite false 6755399441055744 (-52).
Definition f_tol : f64 := S754_finite false 4503599627370496 (-92).
Lemma f_3_2_val : fgood f_3_2 /\ fval f_3_2 = 3 / 2.
Proof. split; [split; reflexivity|]. unfold f_3_2, fval, SF2R, F2R, bpow. cbn -[Rmult Rinv IZR]. change (Z.pow_pos 2 52) with 4503599627370496%Z. lra. Qed.
Lemma f_tol_val : fgood f_tol /\ fval f_tol = / 2 ^ 40.
Proof. split; [split; reflexivity|]. unfold f_tol, fval, SF2R, F2R, bpow. cbn -[Rmult Rinv IZR pow]. change (Z.pow_pos 2 92) with 4951760157141521099596496896%Z. lra. Qed.
Lemma th_small : bpow radix2 (-500) <= / 2 ^ 60.
Proof. replace (/ 2 ^ 60) with (bpow radix2 (-60)); [apply bpow_le; lia|]. unfold bpow. cbn -[Rinv IZR pow]. change (Z.pow_pos 2 60) with 1152921504606846976%Z. lra. Qed.

Lemma root2_bound : newton_bound (51 / 100) (/ 2 ^ 48) (/ 2 ^ 48) (Rabs (fval f_3_2 - sqrt 2)) 5 <= / 2 ^ 46.
Proof.
  pose proof sqrt2_bounds as S. rewrite (proj2 f_3_2_val). rewrite Rabs_pos_eq by lra.
  eapply Rle_trans; [apply (newton_bound_mono (51 / 100) (/ 2 ^ 48) (/ 2 ^ 48) ltac:(lra) ltac:(lra) ltac:(lra) 5 _ (858 / 10000)); lra|].
  cbn [newton_bound]. 
  set (e1 := 51 / 100 * (858 / 10000) ^ 2 + / 2 ^ 48 * (858 / 10000) + / 2 ^ 48). assert (0 <= e1 <= 4 / 1000) as B1 by (unfold e1; lra). clearbody e1.
  set (e2 := 51 / 100 * e1 ^ 2 + / 2 ^ 48 * e1 + / 2 ^ 48). assert (0 <= e2 <= 9 / 1000000) as B2 by (unfold e2; cbn [pow]; nra). clearbody e2.
  set (e3 := 51 / 100 * e2 ^ 2 + / 2 ^ 48 * e2 + / 2 ^ 48). assert (0 <= e3 <= 5 / 10 ^ 11) as B3.
  { assert (0 <= e2 * e2 <= 9 / 1000000 * (9 / 1000000)) by (split; [apply Rmult_le_pos|apply Rmult_le_compat]; lra). unfold e3. replace (e2 ^ 2) with (e2 * e2) by ring. lra. } clearbody e3.
  set (e4 := 51 / 100 * e3 ^ 2 + / 2 ^ 48 * e3 + / 2 ^ 48). assert (0 <= e4 <= / 2 ^ 47) as B4.
  { assert (0 <= e3 * e3 <= 5 / 10 ^ 11 * (5 / 10 ^ 11)) by (split; [apply Rmult_le_pos|apply Rmult_le_compat]; lra). unfold e4. replace (e3 ^ 2) with (e3 * e3) by ring. lra. } clearbody e4.
  assert (0 <= e4 * e4 <= / 2 ^ 47 * / 2 ^ 47) by (split; [apply Rmult_le_pos|apply Rmult_le_compat]; lra). replace (e4 ^ 2) with (e4 * e4) by ring. lra.
Qed.

(** the two f64 neighbours of the square root of two map to each other *)
Definition cyc_a : f64 := S754_finite false 6369051672525772 (-52).
Definition cyc_b : f64 := S754_finite false 6369051672525773 (-52).
Definition tol_53 : f64 := S754_finite false 4503599627370496 (-105).
Lemma cycle n : @find_root f64 F64_ops (F64_pops root_pow) n tol_53 root2_func root2_jac (mkMatrix 1 1 [cyc_a]) = Ret Err /\
  @find_root f64 F64_ops (F64_pops root_pow) n tol_53 root2_func root2_jac (mkMatrix 1 1 [cyc_b]) = Ret Err.
Proof.
  induction n as [|n (IA & IB)]; [split; reflexivity|]. split.
  - rewrite (find_root_step root_pow n tol_53 root2_func root2_jac cyc_a (sub (mul cyc_a cyc_a) (of_Z 2)) (mul (of_Z 2) cyc_a) eq_refl eq_refl eq_refl).
    replace (sub cyc_a (corr (sub (mul cyc_a cyc_a) (of_Z 2)) (mul (of_Z 2) cyc_a))) with cyc_b by (vm_compute; reflexivity).
    replace (ltb (len1 root_pow (sub cyc_a cyc_b)) tol_53) with false by (vm_compute; reflexivity). exact IB.
  - rewrite (find_root_step root_pow n tol_53 root2_func root2_jac cyc_b (sub (mul cyc_b cyc_b) (of_Z 2)) (mul (of_Z 2) cyc_b) eq_refl eq_refl eq_refl).
    replace (sub cyc_b (corr (sub (mul cyc_b cyc_b) (of_Z 2)) (mul (of_Z 2) cyc_b))) with cyc_a by (vm_compute; reflexivity).
    replace (ltb (len1 root_pow (sub cyc_b cyc_a)) tol_53) with false by (vm_compute; reflexivity). exact IA.
Qed.
Lemma never_ok n : @find_root f64 F64_ops (F64_pops root_pow) n tol_53 root2_func root2_jac (mkMatrix 1 1 [f_3_2]) = Ret Err.
Proof.
  assert (St : forall k a, eqb (mul (of_Z 2) a) zero = false -> ltb (len1 root_pow (sub a (sub a (corr (sub (mul a a) (of_Z 2)) (mul (of_Z 2) a))))) tol_53 = false ->
    @find_root f64 F64_ops (F64_pops root_pow) (S k) tol_53 root2_func root2_jac (mkMatrix 1 1 [a]) =
    @find_root f64 F64_ops (F64_pops root_pow) k tol_53 root2_func root2_jac (mkMatrix 1 1 [sub a (corr (sub (mul a a) (of_Z 2)) (mul (of_Z 2) a))])).
  { intros k a H1 H2. rewrite (find_root_step root_pow k tol_53 root2_func root2_jac a _ _ eq_refl eq_refl H1). rewrite H2. reflexivity. }
  do 4 (destruct n as [|n]; [reflexivity|rewrite St by (vm_compute; reflexivity);
    match goal with |- context [mkMatrix 1 1 [?e]] => let v := eval vm_compute in e in replace e with v by (vm_compute; reflexivity) end]).
  match goal with |- context [mkMatrix 1 1 [?e]] => first [replace e with cyc_a by (vm_compute; reflexivity); apply cycle|replace e with cyc_b by (vm_compute; reflexivity); apply cycle] end.
Qed.
