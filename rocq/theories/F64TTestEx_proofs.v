(** Two samples in the range of the t statistics. *)
From Coq Require Import Arith Lia List Bool ZArith Reals Lra Psatz SpecFloat.
From Flocq Require Import Core IEEE754.BinarySingleNaN.
From Verif Require Import Outcome Scalar RealOps Elem_model Int_model Int_proofs Ode_model Special_model Stat_model Matrix_spec F64_spec F64Stat_spec F64Cplx_spec F64Norm_spec F64TTest_spec
  F64Flocq F64Err_proofs F64NewtonEx_proofs F64Norm_proofs F64Var_proofs F64TTest_proofs Stat_spec Sample_proofs.
Import ListNotations.
Local Open Scope R_scope.

Definition sample_123 : list f64 := [int_as_f64 1; int_as_f64 2; int_as_f64 3].
Definition sample_456 : list f64 := [int_as_f64 4; int_as_f64 5; int_as_f64 6].
Lemma sample_vals : map fval sample_123 = [1; 2; 3] /\ map fval sample_456 = [4; 5; 6].
Proof.
  assert (H : forall z, (0 <= z <= 6)%Z -> fval (int_as_f64 z) = IZR z) by (intros z Hz; apply (int_as_f64_ok z); change (2 ^ 53)%Z with 9007199254740992%Z; lia).
  unfold sample_123, sample_456. cbn [map]. rewrite !H by lia. split; reflexivity.
Qed.
Lemma sample_small a : 1 <= a <= 4 -> let x := [a; a + 1; a + 2] in sample_ok 1 (/ 1000000) x.
Proof.
  intros Ha x. assert (A : average x = a + 1) by (unfold average, x; cbn [total length INR]; field). assert (V : unbiased_variance x = 1) by (unfold unbiased_variance; rewrite A; unfold x; cbn [map total length INR Nat.sub]; field).
  assert (AA : average_abs x = a + 1). { unfold average_abs, average, x. cbn [map total length INR]. rewrite !Rabs_pos_eq by lra. field. }
  destruct tq_u as ((U0 & U1) & T0 & T1). assert (U2 : uro <= / 1000000000000) by (rewrite uro_val; lra).
  assert (G6 : gam 6 <= 7 * uro). { eapply Rle_trans; [apply gam_le; cbn [INR]; lra|]. cbn [INR]. apply Rmult_le_reg_r with (1 - (1 + 1 + 1 + 1 + 1 + 1) * uro); [lra|]. unfold Rdiv. rewrite Rmult_assoc, Rinv_l, Rmult_1_r by lra. nra. }
  assert (G3 : gam 3 <= gam 6) by (apply gam_mono; lia). pose proof (gam_pos 3) as P3. pose proof (gam_pos 6) as P6.
  assert (M : mean_error x <= 36 * uro). { unfold mean_error. rewrite AA. change (length x) with 3%nat. assert (gam 3 * (a + 1) <= gam 3 * 5) by (apply Rmult_le_compat_l; lra). lra. }
  pose proof (mean_error_pos x) as M0. assert (M2 : mean_error x ^ 2 <= uro). { apply Rle_trans with (36 * uro * (36 * uro)); [|nra]. rewrite <- Rsqr_pow2. unfold Rsqr. apply Rmult_le_compat; lra. }
  split.
  - rewrite V. change 1 with (bpow radix2 0). split; apply bpow_le; lia.
  - unfold var_error. rewrite V. change (length x) with 3%nat. change (3 + 1 + 2)%nat with 6%nat. pose proof (pow2_ge_0 (mean_error x)) as M3.
    assert ((1 + gam 6) * (2 * mean_error x ^ 2) <= 2 * (2 * uro)) by (apply Rmult_le_compat; lra). assert (eta64 * (1 + gam 3) <= uro * 2) by (apply Rmult_le_compat; lra). lra.
Qed.
(** Constant special functions, enough to evaluate Welch's test. *)
Definition const_special : Special f64 := {| x_gamma := fun _ => Ret one; x_digamma := fun _ => Ret one; x_gamma_lr := fun _ _ => Ret one; x_gamma_ur := fun _ _ => Ret one; x_gamma_ur_inv := fun _ _ => Ret one;
  x_erf := fun _ => Ret one; x_beta := fun _ _ => Ret one; x_beta_inc_reg := fun _ _ _ => Ret one; x_f21 := fun _ _ _ _ => Ret one |}.
Definition const_elem : EOps f64 := let f := fun x : f64 => x in {| texp := f; tln := f; tsin := f; tcos := f; ttan := f; tasin := f; tacos := f; tatan := f; tatan2 := fun x _ => x; tsinh := f; tcosh := f; ttanh := f;
  tasinh := f; tacosh := f; tatanh := f; tpi := int_as_f64 3; te := int_as_f64 3 |}.
Lemma ttest_example :
  square_acc 1 (fun x => root_pow x (lit 2 1)) /\ root_acc 1 (fun x => root_pow x (@half f64 (F64_pops root_pow))) /\ root_total (fun x => root_pow x (@half f64 (F64_pops root_pow))) /\ gam 1 <= / 1000 /\
  Forall fvalid sample_123 /\ Forall fvalid sample_456 /\ sample_ok 1 (/ 1000000) (map fval sample_123) /\ sample_ok 1 (/ 1000000) (map fval sample_456) /\
  (exists dx dy, @normal_from_data f64 F64_ops (F64_pops root_pow) F64_zops sample_123 = Ret dx /\ @normal_from_data f64 F64_ops (F64_pops root_pow) F64_zops sample_456 = Ret dy /\ ffin (no_var dx) = true /\ ffin (no_var dy) = true) /\
  (exists t, @t_one_sample f64 F64_ops (F64_pops root_pow) F64_zops sample_123 zero = Ret t /\ ffin (tt_t t) = true) /\
  (exists t, @t_equal_variance f64 F64_ops (F64_pops root_pow) F64_zops sample_123 sample_456 = Ret t /\ ffin (tt_t t) = true) /\
  (exists t, @t_unequal_variance f64 F64_ops (F64_pops root_pow) const_elem F64_zops const_special sample_123 sample_456 = Ret t /\ ffin (tt_t t) = true).
Proof.
  destruct norm_pow as (A & B & _ & C). split; [exact A|]. split; [exact B|]. split; [exact C|]. split; [unfold gam; rewrite uro_val; lra|]. split; [repeat constructor; vm_compute; reflexivity|]. split; [repeat constructor; vm_compute; reflexivity|].
  destruct sample_vals as (-> & ->). split. { replace [1; 2; 3] with [1; 1 + 1; 1 + 2] by (repeat f_equal; lra). apply sample_small. lra. } split. { replace [4; 5; 6] with [4; 4 + 1; 4 + 2] by (repeat f_equal; lra). apply sample_small. lra. }
  split; [do 2 eexists; split; [vm_compute; reflexivity|]; split; [vm_compute; reflexivity|]; split; vm_compute; reflexivity|]. split; [eexists; split; [vm_compute; reflexivity|vm_compute; reflexivity]|]. split; [eexists; split; [vm_compute; reflexivity|vm_compute; reflexivity]|]. eexists. split; [vm_compute; reflexivity|vm_compute; reflexivity].
Qed.
(** Three times 0.1 against the mean 0.1: over the reals there is no statistic. *)
Lemma ttest_constant : exists t, @t_one_sample f64 F64_ops (F64_pops root_pow) F64_zops [tenth; tenth; tenth] tenth = Ret t /\ ffin (tt_t t) = true /\ 1 < fval (tt_t t) /\
  t_one_sample (map fval [tenth; tenth; tenth]) (fval tenth) = Panic.
Proof.
  eexists. split; [vm_compute; reflexivity|]. cbn [tt_t]. split; [reflexivity|]. split.
  - unfold fval, SF2R, F2R. cbn [Fnum Fexp cond_Zopp bpow]. change (Z.pow_pos radix2 52) with 4503599627370496%Z. lra.
  - apply t_one_sample_panic. right. cbn [map]. intros x y Hx Hy. cbn [In] in Hx, Hy. destruct Hx as [<-|[<-|[<-|[]]]], Hy as [<-|[<-|[<-|[]]]]; reflexivity.
Qed.
