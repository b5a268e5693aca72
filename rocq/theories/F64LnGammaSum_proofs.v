(** The coefficient sum of ln_gamma in binary64. *)
From Coq Require Import Arith Lia List Bool ZArith Reals Lra Psatz SpecFloat.
From Flocq Require Import Core IEEE754.BinarySingleNaN.
From Verif Require Import Outcome Scalar RealOps Elem_model Int_model Ode_model Special_model Special_spec F64_spec F64Cplx_spec F64Gamma_spec
  Special_proofs LnGammaAcc_proofs F64Flocq F64Err_proofs F64Grid_proofs F64Euler_proofs F64QR_proofs F64QREx_proofs F64Term_proofs F64Gamma_proofs.
Local Open Scope R_scope.

(** The sum of the absolute values of the terms is at most 5000 times the sum: the numerator has positive coefficients in z - 1/2. *)
Definition lg_abs (z : R) : R := 248574089138753565546 / 10000000000000000000000000
  + 105142378581721974210 / 100000000000000000000 / (z + 0) + 345687097222016235469 / 100000000000000000000 / (z + 1)
  + 451227709466894823700 / 100000000000000000000 / (z + 2) + 298285225323576655721 / 100000000000000000000 / (z + 3)
  + 105639711577126713077 / 100000000000000000000 / (z + 4) + 195428773191645869583 / 1000000000000000000000 / (z + 5)
  + 170970543404441224307 / 10000000000000000000000 / (z + 6) + 571926117404305781283 / 1000000000000000000000000 / (z + 7)
  + 463399473359905636708 / 100000000000000000000000000 / (z + 8) + 271994908488607703910 / 100000000000000000000000000000 / (z + 9).
Lemma lg_abs_bound z : / 2 <= z -> lg_abs z <= 5000 * lg_S z.
Proof.
  intros H. rewrite lg_S_eq. unfold lg_abs. assert (Ez : z = (z - / 2) + / 2) by ring. assert (H0 : 0 <= z - / 2) by lra. revert Ez H0. generalize (z - / 2). intros t -> H0.
  match goal with |- ?a <= ?b => assert (D : b - a = ((((((((((636222398261570085972200448000 * t + 1633132975968770052352242590208) * t + 198215278913028528739481871853824) * t + 34280900029501613990757813528008192) * t + 1166103855010941430552515887245125376) * t + 19906765191625074607354601992671603392) * t + 206053639608829347138813867025422515296) * t + 1368194994902444453817512961061695644768) * t + 5766861823363152669838171068896442069904) * t + 14176116531909787472929273023025142797890) * t + 15570580459864319152808043718101852084825) / 5120000000000000000000000000000
    / ((t + / 2) * (t + / 2 + 1) * (t + / 2 + 2) * (t + / 2 + 3) * (t + / 2 + 4) * (t + / 2 + 5) * (t + / 2 + 6) * (t + / 2 + 7) * (t + / 2 + 8) * (t + / 2 + 9))) end.
  { field. repeat split; lra. }
  match type of D with _ = ?q => assert (Q : 0 < q) end.
  { apply Rdiv_lt_0_compat; [apply Rdiv_lt_0_compat; [|lra]|repeat (apply Rmult_lt_0_compat; [|lra]); lra].
    repeat (apply Rplus_le_lt_0_compat; [apply Rmult_le_pos; [|assumption]|lra]; apply Rlt_le). lra. }
  rewrite <- D in Q. clear D. lra.
Qed.
Lemma lg_size z : / 2 <= z -> / 300000000 <= lg_S z <= 28 /\ lg_abs z <= 28.
Proof.
  intros H. pose proof (lg_abs_bound z H) as B.
  assert (I : forall i, 0 <= i -> 0 < / (z + i) <= 2) by (intros i Hi; split; [apply Rinv_0_lt_compat; lra|replace 2 with (/ (/ 2)) by field; apply Rinv_le_contravar; lra]).
  pose proof (I 0 ltac:(lra)). pose proof (I 1 ltac:(lra)). pose proof (I 2 ltac:(lra)). pose proof (I 3 ltac:(lra)). pose proof (I 4 ltac:(lra)).
  pose proof (I 5 ltac:(lra)). pose proof (I 6 ltac:(lra)). pose proof (I 7 ltac:(lra)). pose proof (I 8 ltac:(lra)). pose proof (I 9 ltac:(lra)).
  assert (A : 248574089138753565546 / 10000000000000000000000000 <= lg_abs z <= 28) by (unfold lg_abs, Rdiv at 2 3 4 5 6 7 8 9 10 11 12 13 14 15 16 17 18 19 20 21; lra).
  assert (S : lg_S z <= lg_abs z). { rewrite lg_S_eq. unfold lg_abs. unfold Rdiv. unfold Rdiv in *. lra. }
  split; [split|]; lra.
Qed.

(** ** The terms *)
Definition scof (s : R) (c : f64) (C : R) : Prop := fgood c /\ near (31 / 10 * uro) (s * fval c) C /\ / 1000000000 <= C <= 5.
Ltac scof_tac := match goal with |- scof _ ?t _ => let v := eval vm_compute in t in replace t with v by (vm_compute; reflexivity) end;
  split; [split; vm_compute; reflexivity|]; split; [|lra]; apply (near_le (102 / 100 * (3 * uro))); [|pose proof uro_b; lra];
  apply near_rel; [pose proof uro_b; lra|lra|]; rewrite fval_fin, uro_val; simpl; apply Rabs_le; lra.
Lemma dk0 : scof 1 gamma_dk0 (248574089138753565546 / 10000000000000000000000000). Proof. scof_tac. Qed.
Lemma dk1 : scof 1 (lit 105142378581721974210 100000000000000000000) (105142378581721974210 / 100000000000000000000). Proof. scof_tac. Qed.
Lemma dk2 : scof (-1) (lit (-345687097222016235469) 100000000000000000000) (345687097222016235469 / 100000000000000000000). Proof. scof_tac. Qed.
Lemma dk3 : scof 1 (lit 451227709466894823700 100000000000000000000) (451227709466894823700 / 100000000000000000000). Proof. scof_tac. Qed.
Lemma dk4 : scof (-1) (lit (-298285225323576655721) 100000000000000000000) (298285225323576655721 / 100000000000000000000). Proof. scof_tac. Qed.
Lemma dk5 : scof 1 (lit 105639711577126713077 100000000000000000000) (105639711577126713077 / 100000000000000000000). Proof. scof_tac. Qed.
Lemma dk6 : scof (-1) (lit (-195428773191645869583) 1000000000000000000000) (195428773191645869583 / 1000000000000000000000). Proof. scof_tac. Qed.
Lemma dk7 : scof 1 (lit 170970543404441224307 10000000000000000000000) (170970543404441224307 / 10000000000000000000000). Proof. scof_tac. Qed.
Lemma dk8 : scof (-1) (lit (-571926117404305781283) 1000000000000000000000000) (571926117404305781283 / 1000000000000000000000000). Proof. scof_tac. Qed.
Lemma dk9 : scof 1 (lit 463399473359905636708 100000000000000000000000000) (463399473359905636708 / 100000000000000000000000000). Proof. scof_tac. Qed.
Lemma dk10 : scof (-1) (lit (-271994908488607703910) 100000000000000000000000000000) (271994908488607703910 / 100000000000000000000000000000). Proof. scof_tac. Qed.
Lemma tiny60 : bpow radix2 (-1000) <= / 1000000000000000000.
Proof. apply Rle_trans with (bpow radix2 (-60)); [apply bpow_le; lia|simpl; lra]. Qed.
Lemma sterm (s : R) (c y : f64) C Y : s = 1 \/ s = -1 -> scof s c C -> fnear (42 / 10 * uro) y Y -> / 2 <= Y <= 1000010 ->
  fgood (div c y) /\ Rabs (fval (div c y) - s * (C / Y)) <= 86 / 10 * uro * (C / Y) /\ 0 < C / Y <= 10.
Proof.
  intros Hs ((Vc & Fc) & Nc & HC) ((Vy & Fy) & Ny) HY. pose proof uro_b as U.
  assert (Y1 : / 1000010 <= / Y <= 2) by (split; [apply Rinv_le_contravar; lra|replace 2 with (/ (/ 2)) by field; apply Rinv_le_contravar; lra]).
  assert (Q : / 1000000000 * / 1000010 <= C / Y <= 5 * 2) by (unfold Rdiv; split; apply Rmult_le_compat; lra). pose proof tiny60 as T. pose proof big23 as B.
  pose proof (near_div _ _ _ _ _ _ Nc Ny) as NP. pose proof (near_range (31 / 10 * uro + 42 / 10 * uro) _ _ ltac:(lra) NP) as Rg. destruct (near_pos _ _ _ Ny) as (Y0 & _).
  assert (A : Rabs (fval c / fval y) = s * fval c / fval y).
  { destruct Hs as [-> | ->]; [rewrite Rmult_1_l in *; apply Rabs_pos_eq; lra|]. replace (-1 * fval c / fval y) with (- (fval c / fval y)) in * by (field; lra). apply Rabs_left. lra. }
  destruct (fdiv_ok c y Vc Vy Fc Fy) as (V & F & Er); [lra|rewrite A; lra|]. rewrite A in Er. split; [split; assumption|]. split; [|lra].
  assert (N2 : near (103 / 100 * uro) (s * fval (div c y)) (s * fval c / fval y)).
  { apply round_near; [lra|]. replace (s * fval (div c y) - s * fval c / fval y) with (s * (fval (div c y) - fval c / fval y)) by (field; lra).
    rewrite Rabs_mult. replace (Rabs s) with 1 by (destruct Hs as [-> | ->]; unfold Rabs; destruct Rcase_abs; lra). rewrite Rmult_1_l. exact Er. }
  pose proof (near_trans _ _ _ _ _ N2 NP) as N3. apply (rel_near (103 / 100 * uro + (31 / 10 * uro + 42 / 10 * uro))) in N3; [|lra].
  assert (0 <= uro * (C / Y)) by (apply Rmult_le_pos; lra).
  replace (Rabs (fval (div c y) - s * (C / Y))) with (Rabs (s * fval (div c y) - C / Y)); [lra|].
  destruct Hs as [-> | ->]; [now rewrite !Rmult_1_l|]. rewrite <- (Rabs_Ropp (fval _ - _)). f_equal. ring.
Qed.
Lemma sinv (k : R) (s t : f64) S B X g : Inv k s S B -> fgood t -> Rabs (fval t - g * X) <= 86 / 10 * uro * X -> g = 1 \/ g = -1 -> 0 < X <= 10 -> 86 / 10 <= k <= 20 -> 0 < B <= 30000 ->
  Inv (k + 101 / 100) (add s t) (S + g * X) (B + X).
Proof.
  intros ((Vs & Fs) & Hs & HS) (Vt & Ft) Ht Hg HX Hk HB. pose proof uro_b as U. pose proof big23 as B23.
  assert (U1 : 0 <= k * uro) by (apply Rmult_le_pos; lra). assert (U2 : k * uro <= 20 * / 1000000000000000) by (apply Rmult_le_compat; lra).
  assert (KB : k * uro * B <= / 10000 * B) by (apply Rmult_le_compat_r; lra). assert (UX : 86 / 10 * uro * X <= / 10000 * X) by (apply Rmult_le_compat_r; lra).
  assert (UB : uro * (10001 / 10000 * (B + X)) <= 101 / 100 * uro * (B + X)) by (assert (0 <= uro * (B + X)) by (apply Rmult_le_pos; lra); lra).
  assert (KX : 86 / 10 * uro * X <= k * uro * X) by (apply Rmult_le_compat_r; [lra|]; apply Rmult_le_compat_r; lra).
  assert (M : Rabs (S + g * X) <= B + X) by (revert HS; destruct Hg as [-> | ->]; unfold Rabs; repeat destruct Rcase_abs; lra).
  assert (M2 : Rabs ((fval s + fval t) - (S + g * X)) <= k * uro * B + 86 / 10 * uro * X).
  { replace (fval s + fval t - (S + g * X)) with ((fval s - S) + (fval t - g * X)) by ring. eapply Rle_trans; [apply Rabs_triang|lra]. }
  assert (M3 : Rabs (fval s + fval t) <= 10001 / 10000 * (B + X)).
  { replace (fval s + fval t) with ((fval s + fval t - (S + g * X)) + (S + g * X)) by ring. eapply Rle_trans; [apply Rabs_triang|lra]. }
  destruct (fadd_ok s t Vs Vt Fs Ft) as (V & F & E); [lra|].
  assert (M4 : Rabs (fval (add s t) - (fval s + fval t)) <= uro * (10001 / 10000 * (B + X))) by (eapply Rle_trans; [exact E|apply Rmult_le_compat_l; lra]).
  split; [split; assumption|]. split; [|exact M].
  replace ((k + 101 / 100) * uro * (B + X)) with (101 / 100 * uro * (B + X) + k * uro * B + k * uro * X) by ring.
  replace (fval (add s t) - (S + g * X)) with ((fval (add s t) - (fval s + fval t)) + (fval s + fval t - (S + g * X))) by ring. eapply Rle_trans; [apply Rabs_triang|lra].
Qed.
(** Whatever way the denominators z + i - 1 are computed, with a relative error of 4.2 u. *)
Lemma dk_f64 (d : Z -> f64) z : / 2 <= z <= 1000000 -> (forall i, (1 <= i <= 10)%Z -> fnear (42 / 10 * uro) (d i) (z + IZR (i - 1))) ->
  fnear (96000 * uro) (dk_sum d 1 gamma_dk gamma_dk0) (lg_S z).
Proof.
  intros Hz Hd. pose proof uro_b as U.
  assert (P1 : (1 = 1 :> R \/ 1 = -1 :> R)) by (left; reflexivity). assert (P2 : (-1 = 1 :> R \/ -1 = -1 :> R)) by (right; reflexivity).
  destruct (sterm _ _ _ _ _ P1 dk1 (Hd 1%Z ltac:(lia)) ltac:(cbn; lra)) as (G1 & E1 & R1).
  destruct (sterm _ _ _ _ _ P2 dk2 (Hd 2%Z ltac:(lia)) ltac:(cbn; lra)) as (G2 & E2 & R2).
  destruct (sterm _ _ _ _ _ P1 dk3 (Hd 3%Z ltac:(lia)) ltac:(cbn; lra)) as (G3 & E3 & R3).
  destruct (sterm _ _ _ _ _ P2 dk4 (Hd 4%Z ltac:(lia)) ltac:(cbn; lra)) as (G4 & E4 & R4).
  destruct (sterm _ _ _ _ _ P1 dk5 (Hd 5%Z ltac:(lia)) ltac:(cbn; lra)) as (G5 & E5 & R5).
  destruct (sterm _ _ _ _ _ P2 dk6 (Hd 6%Z ltac:(lia)) ltac:(cbn; lra)) as (G6 & E6 & R6).
  destruct (sterm _ _ _ _ _ P1 dk7 (Hd 7%Z ltac:(lia)) ltac:(cbn; lra)) as (G7 & E7 & R7).
  destruct (sterm _ _ _ _ _ P2 dk8 (Hd 8%Z ltac:(lia)) ltac:(cbn; lra)) as (G8 & E8 & R8).
  destruct (sterm _ _ _ _ _ P1 dk9 (Hd 9%Z ltac:(lia)) ltac:(cbn; lra)) as (G9 & E9 & R9).
  destruct (sterm _ _ _ _ _ P2 dk10 (Hd 10%Z ltac:(lia)) ltac:(cbn; lra)) as (G10 & E10 & R10).
  assert (I0 : Inv (86 / 10) gamma_dk0 (248574089138753565546 / 10000000000000000000000000) (248574089138753565546 / 10000000000000000000000000)).
  { destruct dk0 as (G0 & N0 & C0). rewrite Rmult_1_l in N0. split; [exact G0|]. split; [|rewrite Rabs_pos_eq; lra]. eapply Rle_trans; [apply (rel_near (31 / 10 * uro)); [lra|exact N0]|]. apply Rmult_le_compat_r; lra. }
  pose proof (sinv _ _ _ _ _ _ _ I0 G1 E1 P1 R1 ltac:(lra) ltac:(lra)) as I1.
  pose proof (sinv _ _ _ _ _ _ _ I1 G2 E2 P2 R2 ltac:(lra) ltac:(lra)) as I2.
  pose proof (sinv _ _ _ _ _ _ _ I2 G3 E3 P1 R3 ltac:(lra) ltac:(lra)) as I3.
  pose proof (sinv _ _ _ _ _ _ _ I3 G4 E4 P2 R4 ltac:(lra) ltac:(lra)) as I4.
  pose proof (sinv _ _ _ _ _ _ _ I4 G5 E5 P1 R5 ltac:(lra) ltac:(lra)) as I5.
  pose proof (sinv _ _ _ _ _ _ _ I5 G6 E6 P2 R6 ltac:(lra) ltac:(lra)) as I6.
  pose proof (sinv _ _ _ _ _ _ _ I6 G7 E7 P1 R7 ltac:(lra) ltac:(lra)) as I7.
  pose proof (sinv _ _ _ _ _ _ _ I7 G8 E8 P2 R8 ltac:(lra) ltac:(lra)) as I8.
  pose proof (sinv _ _ _ _ _ _ _ I8 G9 E9 P1 R9 ltac:(lra) ltac:(lra)) as I9.
  pose proof (sinv _ _ _ _ _ _ _ I9 G10 E10 P2 R10 ltac:(lra) ltac:(lra)) as I10.
  clear I0 I1 I2 I3 I4 I5 I6 I7 I8 I9. destruct I10 as (G & E & _).
  split; [exact G|]. pose proof (lg_size z ltac:(lra)) as ((P & _) & _). pose proof (lg_abs_bound z ltac:(lra)) as LB.
  cbn [Z.sub Z.add Z.opp Z.pos_sub Pos.pred_double Z.pred_double Z.succ_double Z.double] in E.
  apply (near_le (102 / 100 * (5000 * (86 / 10 + 10 * (101 / 100)) * uro))); [|lra]. apply near_rel; [lra|lra|].
  match type of E with Rabs (?v - ?S) <= ?k * uro * ?B => assert (ES : S = lg_S z); [rewrite lg_S_eq; unfold Rdiv; ring|assert (EB : B = lg_abs z) by reflexivity; rewrite ES, EB in E;
    apply Rle_trans with (k * uro * (5000 * lg_S z)); [|right; field]; eapply Rle_trans; [exact E|apply Rmult_le_compat_l; [lra|exact LB]]] end.
Qed.
