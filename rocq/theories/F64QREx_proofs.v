(** Example data for the QR decomposition in binary64. *)
From Coq Require Import Arith Lia List Bool ZArith Reals Lra SpecFloat.
From Flocq Require Import Core IEEE754.BinarySingleNaN.
From Verif Require Import Outcome Scalar RealOps Matrix_model Decomp_model Int_model Matrix_spec F64_spec F64QR_spec
  Matrix_proofs VecProps_proofs F64Flocq F64Err_proofs F64Lin_proofs F64Chol_proofs.
Import ListNotations.
Local Open Scope R_scope.

Definition ieee_pow : f64 -> f64 -> f64 := fun x _ => SFsqrt 53 1024 x.
Lemma sqrt_good_ieee : sqrt_good 2 (fun x => ieee_pow x (@half f64 (F64_pops ieee_pow))).
Proof.
  split; [exact sqrt_acc_ieee|]. intros x V F H. unfold ieee_pow. rewrite <- (B2SF_toB x V) in *. rewrite SFsqrt_equiv. rewrite ffin_B in *. rewrite fval_B in H.
  destruct (Bsqrt_correct 53 1024 Hprec53 Hmax53 mode_NE (toB x V)) as (_ & Ff & _). rewrite Ff. set (b := toB x V) in *. clearbody b.
  destruct b as [| | |s m e Be]; try discriminate; [reflexivity|]. destruct s; [|reflexivity].
  exfalso. assert (B2R (B754_finite true m e Be) < 0); [|lra]. apply F2R_lt_0. reflexivity.
Qed.
Definition qr_ex : matrix f64 := mkMatrix 3 2 (map int_as_f64 [1; 3; 5; 2; 4; 7]%Z).
Definition qr_ex_ent (i j : nat) : f64 := nth (j * 3 + i) (data qr_ex) zero.
Lemma qr_ex_mat : is_mat qr_ex 3 2 qr_ex_ent.
Proof. apply is_mat_intro; auto. intros i j Hi Hj. apply vget_ok. simpl length. lia. Qed.
Lemma fval_fin s m e : fval (S754_finite s m e) = IZR (cond_Zopp s (Zpos m)) * bpow radix2 e.
Proof. reflexivity. Qed.
Lemma large_l s m e y : (-500 <= e)%Z -> fval (S754_finite s m e) <> 0 /\ bpow radix2 (-500) <= Rmax (Rabs (fval (S754_finite s m e))) y.
Proof.
  intro He. assert (L : bpow radix2 (-500) <= Rabs (fval (S754_finite s m e))).
  { rewrite fval_fin, Rabs_mult, <- abs_IZR, abs_cond_Zopp, (Rabs_pos_eq (bpow radix2 e)) by apply bpow_ge_0.
    apply Rle_trans with (1 * bpow radix2 e); [rewrite Rmult_1_l; apply bpow_le; exact He|]. apply Rmult_le_compat_r; [apply bpow_ge_0|]. apply IZR_le. simpl. lia. }
  split; [intro E; rewrite E, Rabs_R0 in L; pose proof (bpow_gt_0 radix2 (-500)); lra|]. eapply Rle_trans; [exact L|apply Rmax_l].
Qed.
Lemma qr_ex_pairs : qr_pairs ieee_pow qr_ex pair_eliminated.
Proof.
  intros l1 j i l2 I q r a b EO EI EA Ea Eb. change (qr_order (rows qr_ex) (cols qr_ex)) with [(0, 2); (0, 1); (1, 2)]%nat in EO.
  vm_compute in EI. injection EI as <-. right.
  destruct l1 as [|p1 [|p2 [|p3 l1]]]; cbn [app] in EO.
  - injection EO as <- <- _. vm_compute in EA. injection EA as <- <-. vm_compute in Ea. injection Ea as <-. apply large_l. lia.
  - injection EO as <- <- <- _. vm_compute in EA. injection EA as <- <-. vm_compute in Ea. injection Ea as <-. apply large_l. lia.
  - injection EO as <- <- <- <- _. vm_compute in EA. injection EA as <- <-. vm_compute in Ea. injection Ea as <-. apply large_l. lia.
  - injection EO as _ _ _ EO. destruct l1; discriminate.
Qed.
Lemma elim_large a b : pair_eliminated a b -> pair_large a b.
Proof. intros [H|(_ & H)]; unfold pair_large; auto. Qed.
Lemma qr_pairs_mono pw A (P Q : R -> R -> Prop) : (forall a b, P a b -> Q a b) -> qr_pairs pw A P -> qr_pairs pw A Q.
Proof. intros H HP l1 j i l2 I q r a b E1 E2 E3 E4 E5. apply H. exact (HP l1 j i l2 I q r a b E1 E2 E3 E4 E5). Qed.
Lemma qr_ex_good : forall l y, (l < 3)%nat -> (y < 2)%nat -> fvalid (qr_ex_ent l y) /\ ffin (qr_ex_ent l y) = true.
Proof. intros [|[|[|l]]] [|[|y]] Hl Hy; try lia; split; vm_compute; reflexivity. Qed.
Lemma qr_ex_norm : forall y, (y < 2)%nat -> bpow radix2 (-900) <= 9 <= bpow radix2 500 /\ rsum 3 (fun l => fval (qr_ex_ent l y) * fval (qr_ex_ent l y)) <= 9 * 9.
Proof.
  intros y Hy. split.
  - split; [apply Rle_trans with (bpow radix2 0); [apply bpow_le; lia|simpl; lra]|apply Rle_trans with (bpow radix2 4); [simpl; lra|apply bpow_le; lia]].
  - assert (E : forall p : positive, forall e, fval (S754_finite false p e) = IZR (Zpos p) * bpow radix2 e) by reflexivity.
    destruct y as [|[|y]]; [| |lia]; unfold qr_ex_ent; cbn -[fval]; rewrite !E; simpl; lra.
Qed.
Lemma qr_ex_gam : gam ((2 + 16) * (3 * 2)) <= / 100.
Proof.
  eapply Rle_trans; [apply gam_le|]; change ((2 + 16) * (3 * 2))%nat with 108%nat; rewrite uro_val; replace (INR 108) with 108 by (rewrite INR_IZR_INZ; reflexivity); lra.
Qed.
(** Overflow: every entry is finite, but a^2 + b^2 is not. *)
Definition two600 : f64 := S754_finite false 4503599627370496 548.
Lemma qr_overflow : forall pw, pw (S754_infinity false) (@half f64 (F64_pops pw)) = S754_infinity false ->
  @dec_qr f64 F64_ops (F64_pops pw) (mkMatrix 2 2 [two600; two600; zero; one]) = Ret (mkMatrix 2 2 [zero; zero; zero; zero], mkMatrix 2 2 [zero; zero; zero; zero]).
Proof.
  intros pw H. set (A := mkMatrix 2 2 [two600; two600; zero; one]).
  assert (S : exists st, @qr_step f64 F64_ops (F64_pops pw) 0 1 (mkMatrix 2 2 [one; zero; zero; one], A) = Ret st /\ st = (mkMatrix 2 2 [zero; zero; zero; zero], mkMatrix 2 2 [zero; zero; zero; zero])).
  { unfold qr_step. cbn [fst snd]. change (mget A 0 0) with (Ret two600). change (mget A 1 0) with (Ret two600). cbn [bind].
    change (@tpow f64 (F64_pops pw)) with pw. change (add (mul two600 two600) (mul two600 two600)) with (S754_infinity false). rewrite H.
    eexists. split; [vm_compute; reflexivity|reflexivity]. }
  destruct S as (st & S & ->). unfold dec_qr. change (rassert (cols A <=? rows A)%nat) with (Ret tt). cbn [bind].
  change (mone (rows A)) with (Ret (mkMatrix 2 2 [one; zero; zero; one : f64])). cbn [bind]. change (rows A) with 2%nat. change (cols A) with 2%nat.
  unfold for_loop, for_loop_rev. cbn [Nat.sub Nat.add for_from for_down]. rewrite S. cbn [bind fst snd]. vm_compute. reflexivity.
Qed.
Definition tiny : f64 := S754_finite false 6755399441055744 (-590).
Lemma qr_underflow : exists Q Rm, @dec_qr f64 F64_ops (F64_pops ieee_pow) (mkMatrix 2 2 [tiny; tiny; zero; one]) = Ret (Q, Rm) /\
  exists x y, mget Q 0 0 = Ret x /\ mget Q 0 1 = Ret y /\ fval x * fval x + fval y * fval y <= 6 / 10.
Proof.
  eexists _, _. split; [vm_compute; reflexivity|]. eexists _, _. split; [vm_compute; reflexivity|]. split; [vm_compute; reflexivity|].
  rewrite !fval_fin. cbn [cond_Zopp Z.opp]. replace (bpow radix2 (-53)) with (/ 9007199254740992) by (simpl; reflexivity). lra.
Qed.
