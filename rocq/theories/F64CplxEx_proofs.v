(** Example data for complex arithmetic in binary64. *)
From Coq Require Import Arith Lia List Bool ZArith Reals Lra SpecFloat.
From Flocq Require Import Core IEEE754.BinarySingleNaN.
From Verif Require Import Outcome Scalar RealOps Elem_model Complex_model Ode_model F64_spec F64Cplx_spec F64Flocq F64Err_proofs F64Chol_proofs F64Cplx_proofs F64QREx_proofs.
Local Open Scope R_scope.

(** 1 + 2^-30 and 1 - 2^-30. *)
Definition cancel_z : cplx f64 := mkC (S754_finite false 4503599631564800 (-52)) (S754_finite false 4503599627370496 (-52)).
Definition cancel_w : cplx f64 := mkC (S754_finite false 9007199246352384 (-53)) (S754_finite false 4503599627370496 (-52)).
Lemma cancel_ok : cgood cancel_z /\ cgood cancel_w /\ cgood (cmul cancel_z cancel_w) /\ re (cmul (cval cancel_z) (cval cancel_w)) <> 0 /\ fval (re (cmul cancel_z cancel_w)) = 0.
Proof.
  split; [repeat split; vm_compute; reflexivity|]. split; [repeat split; vm_compute; reflexivity|]. split; [repeat split; vm_compute; reflexivity|]. split.
  - unfold cancel_z, cancel_w, cval, cmul. cbn [re im]. rewrite !fval_fin. change (@mul R R_ops) with Rmult. change (@sub R R_ops) with Rminus. simpl. lra.
  - replace (re (cmul cancel_z cancel_w)) with (zero : f64) by (vm_compute; reflexivity). reflexivity.
Qed.
Lemma two600_val : fval two600 = bpow radix2 600.
Proof. unfold two600. rewrite fval_fin. change (IZR (cond_Zopp false 4503599627370496)) with (bpow radix2 52). rewrite <- bpow_plus. reflexivity. Qed.
Lemma div_overflow : let w := mkC two600 zero in cgood w /\ re (cval w) = bpow radix2 600 /\ im (cval w) = 0 /\
  cdiv (mkC one zero) w = Ret czero /\ cdiv w w = Ret (mkC S754_nan zero).
Proof.
  cbv zeta. split; [repeat split; vm_compute; reflexivity|]. split; [exact two600_val|]. split; [reflexivity|]. split; vm_compute; reflexivity.
Qed.
Lemma abs_overflow : forall pw, pw (S754_infinity false) (@half f64 (F64_pops pw)) = S754_infinity false ->
  exists z, cgood z /\ cmod (cval z) = bpow radix2 600 /\ @cabs f64 F64_ops (F64_pops pw) z = mkC (S754_infinity false) zero.
Proof.
  intros pw H. exists (mkC two600 zero). split; [repeat split; vm_compute; reflexivity|]. split.
  - unfold cmod, cval. cbn [re im]. rewrite two600_val. change (fval zero) with 0. rewrite Rmult_0_l, Rplus_0_r. apply sqrt_square, bpow_ge_0.
  - unfold cabs, eroot. cbn [re im]. replace (add (mul two600 two600) (mul zero zero)) with (S754_infinity false : f64) by (vm_compute; reflexivity).
    change (@tpow f64 (F64_pops pw)) with pw. match goal with |- context [div one ?t] => change (div one t) with (@half f64 (F64_pops pw)) end. rewrite H. reflexivity.
Qed.
Lemma ieee_pow_pos : forall x, fvalid x -> ffin (ieee_pow x (@half f64 (F64_pops ieee_pow))) = true -> 0 <= fval (ieee_pow x (@half f64 (F64_pops ieee_pow))).
Proof.
  intros x V F. unfold ieee_pow in *. rewrite <- (B2SF_toB x V) in *. rewrite SFsqrt_equiv in *. rewrite fval_B.
  destruct (Bsqrt_correct 53 1024 Hprec53 Hmax53 mode_NE (toB x V)) as (E & _). rewrite E. apply round_ge_generic; [apply FLT_exp_valid; reflexivity|apply valid_rnd_N|apply generic_format_0|apply sqrt_pos].
Qed.
Definition c34 : cplx f64 := mkC (lit 3 1) (lit 4 1).
Lemma f3 : fval (lit 3 1) = 3. Proof. replace (lit 3 1 : f64) with (S754_finite false 6755399441055744 (-51)) by (vm_compute; reflexivity). rewrite fval_fin. simpl. lra. Qed.
Lemma f4 : fval (lit 4 1) = 4. Proof. replace (lit 4 1 : f64) with (S754_finite false 4503599627370496 (-50)) by (vm_compute; reflexivity). rewrite fval_fin. simpl. lra. Qed.
Lemma c34_ok : cgood c34 /\ cval c34 = mkC 3 4 /\ cgood (cmul c34 c34) /\ cgood (cadd c34 c34) /\ cgood (csub c34 c34) /\
  cbelow (bpow radix2 500) c34 /\ cbelow (bpow radix2 510) c34 /\ cabove (bpow radix2 (-500)) c34 /\ Rabs (fval (re c34)) <= 700.
Proof.
  assert (B : 8 <= bpow radix2 500 /\ 8 <= bpow radix2 510 /\ bpow radix2 (-500) <= 1).
  { change 8 with (bpow radix2 3). change 1 with (bpow radix2 0). repeat split; apply bpow_le; lia. }
  split; [repeat split; vm_compute; reflexivity|]. split; [unfold cval, c34; cbn [re im]; rewrite f3, f4; reflexivity|].
  split; [repeat split; vm_compute; reflexivity|]. split; [repeat split; vm_compute; reflexivity|]. split; [repeat split; vm_compute; reflexivity|].
  unfold cbelow, cabove, c34. cbn [re im]. rewrite f3, f4, !Rabs_pos_eq by lra. repeat split; try lra. eapply Rle_trans; [|apply Rmax_l]. lra.
Qed.
