(** Rounding errors of the linear solve with a matrix right-hand side and of the inverse in binary32. *)
From Coq Require Import ZArith Reals Lra Lia Bool Arith List SpecFloat.
From Flocq Require Import Core IEEE754.BinarySingleNaN.
From Verif Require Import Outcome Scalar Matrix_model Vector_model LU_model Matrix_spec LU_spec Matrix_proofs Vector_proofs LU_proofs Subst_proofs
  F32Flocq Sums F32Err_proofs F32Lin_proofs F32Chol_proofs.
From Verif Require Import F32_model.
#[local] Existing Instance F32_ops.
#[local] Existing Instance F32_zops.
Import ListNotations.
Local Open Scope R_scope.

Lemma fvalid_one : fvalid one. Proof. vm_compute. reflexivity. Qed.
Lemma fval_bound d : fvalid d -> Rabs (fval d) * eta32 <= 4 * uro.
Proof.
  intro V. rewrite <- (B2SF_toB d V), fval_B. pose proof (abs_B2R_lt_emax 24 128 (toB d V)) as H. pose proof eta32_pos as H0.
  apply Rle_trans with (bpow radix2 128 * eta32); [apply Rmult_le_compat_r; lra|]. unfold eta32, uro. rewrite <- bpow_plus. change 4 with (bpow radix2 2). rewrite <- bpow_plus. apply bpow_le. lia.
Qed.

(** One step c * (1 / d). *)
Lemma recip_err d : fvalid d -> ffin d = true -> ffin (div one d) = true ->
  fval d <> 0 /\ Rabs (fval d * fval (div one d) - 1) <= gam 6 * Rabs (fval d * fval (div one d)).
Proof.
  intros Vd Fd F. destruct (fdiv_err one d fvalid_one Vd Fd F) as (_ & Nd & _ & E). split; [exact Nd|].
  assert (O1 : fval (@one f32 F32_ops) = 1) by exact fval_one. rewrite O1 in E. pose proof (fval_bound d Vd) as B. set (r := fval (div one d)) in *. set (e := fval d) in *.
  assert (K : Rabs (e * r - 1) <= uro * Rabs (e * r) + 4 * uro).
  { replace (e * r - 1) with (e * (r - 1 / e)) by (field; exact Nd). rewrite !Rabs_mult. pose proof (Rabs_pos e). assert (Rabs e * Rabs (r - 1 / e) <= Rabs e * (uro * Rabs r + eta32)) by (apply Rmult_le_compat_l; assumption). lra. }
  assert (G : 6 * uro <= gam 6). { unfold gam. pose proof uro_pos. pose proof (pow_le (1 + uro) 4). simpl. nra. }
  assert (L : 1 <= Rabs (e * r) + Rabs (e * r - 1)) by (unfold Rabs; repeat destruct Rcase_abs; lra).
  pose proof (Rabs_pos (e * r)) as P. pose proof uro_pos as U. assert (U2 : uro < / 100) by (rewrite uro_val; lra).
  assert (M : 4 * uro <= 5 * uro * Rabs (e * r)) by nra. apply Rle_trans with (6 * uro * Rabs (e * r)); [lra|]. apply Rmult_le_compat_r; assumption.
Qed.
Lemma recipstep_err c d : fvalid c -> fvalid d -> ffin d = true -> ffin (mul c (div one d)) = true ->
  ffin c = true /\ fval d <> 0 /\
  forall k r S, Rabs (r - fval c) <= gam k * (Rabs (fval c) + S) + INR k * eta32 * (1 + uro) ^ k -> 0 <= S ->
  Rabs (r - fval d * fval (mul c (div one d))) <= gam (7 + k) * (Rabs (fval d * fval (mul c (div one d))) + S) + (INR k + Rabs (fval d)) * eta32 * (1 + uro) ^ (6 + k).
Proof.
  pose proof uro_pos as U. pose proof eta32_pos as H0. intros Vc Vd Fd F. assert (Vr : fvalid (div one d)) by (apply fvalid_div; [reflexivity|exact Vd]).
  destruct (fmul_err _ _ Vc Vr F) as (Fc & Fr & _ & E1). destruct (recip_err d Vd Fd Fr) as [Nd E2].
  split; [exact Fc|]. split; [exact Nd|]. intros k r S I HS. set (x := fval (mul c _)) in *. set (v := fval c) in *. set (e := fval d) in *. set (q := fval (div one d)) in *.
  assert (G6 : 0 <= gam 6) by apply gam_pos. assert (P6 : (1 + uro) ^ 6 = 1 + gam 6) by (unfold gam; ring).
  assert (G7 : gam 7 = gam 6 * (1 + uro) + uro) by apply gam_S.
  assert (K : Rabs (v - e * x) <= gam 7 * Rabs (e * x) + Rabs e * eta32 * (1 + gam 6)).
  { assert (K1 : Rabs (v - e * x) <= Rabs v * Rabs (e * q - 1) + Rabs e * Rabs (x - v * q)).
    { replace (v - e * x) with (- (v * (e * q - 1)) - e * (x - v * q)) by ring. eapply Rle_trans; [apply Rabs_triang|]. rewrite !Rabs_Ropp, !Rabs_mult. lra. }
    assert (K2 : Rabs v * Rabs (e * q - 1) <= gam 6 * (Rabs (e * x) + Rabs e * Rabs (x - v * q))).
    { eapply Rle_trans; [apply Rmult_le_compat_l; [apply Rabs_pos|exact E2]|]. replace (Rabs v * (gam 6 * Rabs (e * q))) with (gam 6 * Rabs (e * (v * q))) by (rewrite !Rabs_mult; ring).
      apply Rmult_le_compat_l; [exact G6|]. replace (e * (v * q)) with (e * x - e * (x - v * q)) by ring. eapply Rle_trans; [apply Rabs_triang|]. rewrite Rabs_Ropp, (Rabs_mult e (x - v * q)). lra. }
    assert (K3 : Rabs e * Rabs (x - v * q) <= uro * Rabs (e * x) + Rabs e * eta32).
    { rewrite Rabs_mult. eapply Rle_trans; [apply Rmult_le_compat_l; [apply Rabs_pos|exact E1]|]. apply Req_le. ring. }
    assert (K4 : (1 + gam 6) * (Rabs e * Rabs (x - v * q)) <= (1 + gam 6) * (uro * Rabs (e * x) + Rabs e * eta32)) by (apply Rmult_le_compat_l; lra). rewrite G7. nra. }
  assert (L : Rabs v <= Rabs (v - e * x) + Rabs (e * x)). { replace v with ((v - e * x) + e * x) at 1 by ring. apply Rabs_triang. }
  assert (M : Rabs (r - e * x) <= Rabs (r - v) + Rabs (v - e * x)). { replace (r - e * x) with ((r - v) + (v - e * x)) by ring. apply Rabs_triang. }
  rewrite (Nat.add_comm 7), gam_plus. rewrite pow_add, P6. assert (Pk : (1 + uro) ^ k = 1 + gam k) by (unfold gam; ring). rewrite Pk in *.
  pose proof (gam_pos k) as Gk. pose proof (gam_pos 7) as Gq. pose proof (Rabs_pos (e * x)). pose proof (Rabs_pos e). pose proof (pos_INR k). set (g := gam k) in *. set (g7 := gam 7) in *. set (g6 := gam 6) in *. clearbody g g7 g6.
  assert (A1 : g * Rabs v <= g * ((1 + g7) * Rabs (e * x) + Rabs e * eta32 * (1 + g6))) by (apply Rmult_le_compat_l; lra).
  assert (A2 : 0 <= g * g7 * S) by (apply Rmult_le_pos; nra). assert (A3 : 0 <= g7 * S) by nra.
  assert (A4 : 0 <= INR k * eta32 * (1 + g) * g6) by (repeat apply Rmult_le_pos; lra). nra.
Qed.

(** ** Substitution in one column *)
Definition fwdc (n : nat) (L : nat -> nat -> f32) (b x : nat -> f32) : Prop :=
  forall k, (k < n)%nat -> x k = mul (subn (b k) k (fun l => mul (x l) (L k l))) (div one (L k k)).
Definition bwdc (n : nat) (U : nat -> nat -> f32) (b x : nat -> f32) : Prop :=
  forall k, (k < n)%nat -> x k = mul (subn (b k) (n - S k) (fun t => mul (x (n - S t)%nat) (U k (n - S t)%nat))) (div one (U k k)).
Lemma fwdc_valid n L b x : fwdc n L b x -> (forall i j, (i < n)%nat -> (j < n)%nat -> fvalid (L i j)) ->
  (forall i, (i < n)%nat -> fvalid (b i)) -> forall k, (k < n)%nat -> fvalid (x k).
Proof.
  intros H VL Vb k. induction k as [k IH] using lt_wf_ind. intro Hk. rewrite (H k Hk).
  apply fvalid_mul; [|apply fvalid_div; [reflexivity|auto]]. apply subn_valid; [auto|]. intros l Hl. apply fvalid_mul; [apply IH; lia|]. apply VL; lia.
Qed.
Lemma bwdc_valid n L b x : bwdc n L b x -> (forall i j, (i < n)%nat -> (j < n)%nat -> fvalid (L i j)) ->
  (forall i, (i < n)%nat -> fvalid (b i)) -> forall k, (k < n)%nat -> fvalid (x k).
Proof.
  intros H VL Vb. enough (G : forall t k, (t = n - k)%nat -> (k < n)%nat -> fvalid (x k)) by (intros k Hk; now apply (G (n - k)%nat)).
  induction t as [t IH] using lt_wf_ind. intros k Ht Hk. rewrite (H k Hk).
  apply fvalid_mul; [|apply fvalid_div; [reflexivity|auto]]. apply subn_valid; [auto|]. intros l Hl. apply fvalid_mul; [apply (IH (n - (n - S l))%nat); lia|]. apply VL; lia.
Qed.
Lemma fmul_one c : fvalid c -> ffin (mul c one) = true -> ffin c = true /\ fval (mul c one) = fval c.
Proof.
  intros V F. destruct (fmul_fin c one V fvalid_one F) as (Fc & _ & E). split; [exact Fc|]. rewrite E. assert (O1 : fval (@one f32 F32_ops) = 1) by exact fval_one.
  rewrite O1, Rmult_1_r. now apply rnd_fval.
Qed.
(** Unit lower triangular: the division is exact. *)
Lemma fwdc_err n L b x : fwdc n L b x -> (forall i j, (i < n)%nat -> (j < n)%nat -> fvalid (L i j)) -> (forall k, (k < n)%nat -> L k k = one) ->
  (forall i, (i < n)%nat -> fvalid (b i)) -> (forall k, (k < n)%nat -> ffin (x k) = true) ->
  forall k, (k < n)%nat -> ffin (b k) = true /\ (forall l, (l < k)%nat -> ffin (L k l) = true) /\
  Rabs (fval (b k) - rsum (S k) (fun l => fval (L k l) * fval (x l))) <=
    gam n * rsum (S k) (fun l => Rabs (fval (L k l) * fval (x l))) + (INR n + 1) * eta32 * (1 + uro) ^ n.
Proof.
  intros H VL D Vb FX k Hk. pose proof (fwdc_valid n L b x H VL Vb) as Vx.
  assert (Vl : forall l, (l < k)%nat -> fvalid (x l) /\ fvalid (L k l)) by (intros l Hl; split; [apply Vx; lia|apply VL; lia]).
  pose proof (FX k Hk) as F. pose proof (H k Hk) as E. rewrite (D k Hk) in E. change (div one one) with (@one f32 F32_ops) in E. rewrite E in F.
  assert (Vc : fvalid (subn (b k) k (fun l => mul (x l) (L k l)))) by (apply subn_valid; [auto|]; intros l Hl; destruct (Vl l Hl); now apply fvalid_mul).
  destruct (fmul_one _ Vc F) as [Fc Ec]. rewrite <- E in Ec.
  destruct (fsubn_err (b k) k x (L k) (Vb k Hk) Vl Fc) as (Fb & G & B). split; [exact Fb|]. split. { intros l Hl. apply (G l Hl). }
  rewrite <- Ec in B. rewrite !rsum_S. rewrite (D k Hk). assert (O1 : fval (@one f32 F32_ops) = 1) by exact fval_one. rewrite O1, !Rmult_1_l, (Rplus_comm (rsum k (fun l => Rabs _))).
  rewrite (sumn_ext k (fun l => fval (x l) * fval (L k l)) (fun l => fval (L k l) * fval (x l))) in B by (intros; apply Rmult_comm).
  rewrite (sumn_ext k (fun l => Rabs (fval (x l) * fval (L k l))) (fun l => Rabs (fval (L k l) * fval (x l)))) in B by (intros; f_equal; apply Rmult_comm).
  apply (weaken_bound k n _ _ _ k); try lia; try lra.
  - pose proof (Rabs_pos (fval (x k))). pose proof (rsum_pos k (fun l => Rabs (fval (L k l) * fval (x l))) (fun l _ => Rabs_pos _)). lra.
  - apply Rplus_le_compat_r, le_INR. lia.
  - replace (fval (b k) - (rsum k (fun l => fval (L k l) * fval (x l)) + fval (x k))) with (fval (b k) - rsum k (fun l => fval (L k l) * fval (x l)) - fval (x k)) by ring.
    eapply Rle_trans; [exact B|]. apply Rplus_le_compat_l. apply Rmult_le_compat_r; [pose proof (gam_pow k); lra|]. apply Rmult_le_compat_r; [pose proof eta32_pos; lra|lra].
Qed.
Lemma bwdc_err n L b x : bwdc n L b x -> (forall i j, (i < n)%nat -> (j < n)%nat -> fvalid (L i j)) ->
  (forall i, (i < n)%nat -> fvalid (b i)) -> (forall k, (k < n)%nat -> ffin (L k k) = true) -> (forall k, (k < n)%nat -> ffin (x k) = true) ->
  forall k, (k < n)%nat -> ffin (b k) = true /\ fval (L k k) <> 0 /\ (forall l, (k < l < n)%nat -> ffin (L k l) = true) /\
  Rabs (fval (b k) - rsum n (fun l => if (k <=? l)%nat then fval (L k l) * fval (x l) else 0)) <=
    gam (n + 6) * rsum n (fun l => if (k <=? l)%nat then Rabs (fval (L k l) * fval (x l)) else 0) + (INR n + Rabs (fval (L k k))) * eta32 * (1 + uro) ^ (n + 6).
Proof.
  intros H VL Vb FD FX k Hk. pose proof (bwdc_valid n L b x H VL Vb) as Vx. pose proof (FD k Hk) as FDk.
  set (a := fun t => L k (n - S t)%nat). set (y := fun t => x (n - S t)%nat).
  assert (Vl : forall l, (l < n - S k)%nat -> fvalid (y l) /\ fvalid (a l)) by (intros l Hl; split; [apply Vx; lia|apply VL; lia]).
  pose proof (FX k Hk) as F. pose proof (H k Hk) as E. rewrite E in F.
  change (fun t => mul (x (n - S t)%nat) (L k (n - S t)%nat)) with (fun t => mul (y t) (a t)) in *.
  assert (Vc : fvalid (subn (b k) (n - S k) (fun l => mul (y l) (a l)))) by (apply subn_valid; [auto|]; intros l Hl; destruct (Vl l Hl); now apply fvalid_mul).
  destruct (recipstep_err _ _ Vc (VL k k Hk Hk) FDk F) as (Fc & Nd & D).
  destruct (fsubn_err (b k) (n - S k) y a (Vb k Hk) Vl Fc) as (Fb & G & B). split; [exact Fb|]. split; [exact Nd|]. split.
  { intros l Hl. destruct (G (n - S l)%nat ltac:(lia)) as [_ A]. unfold a in A. now replace (n - S (n - S l))%nat with l in A by lia. }
  specialize (D _ _ _ B (rsum_pos _ _ (fun l _ => Rabs_pos _))). rewrite <- E in D.
  rewrite (rsum_upper n k (fun l => fval (L k l) * fval (x l)) Hk), (rsum_upper n k (fun l => Rabs (fval (L k l) * fval (x l))) Hk).
  rewrite (Rplus_comm (rsum (n - S k) (fun t => Rabs _))).
  rewrite (sumn_ext (n - S k) (fun l => fval (y l) * fval (a l)) (fun t => fval (L k (n - S t)%nat) * fval (x (n - S t)%nat))) in D by (intros; apply Rmult_comm).
  rewrite (sumn_ext (n - S k) (fun l => Rabs (fval (y l) * fval (a l))) (fun t => Rabs (fval (L k (n - S t)%nat) * fval (x (n - S t)%nat)))) in D by (intros; f_equal; apply Rmult_comm).
  replace (fval (b k) - (rsum (n - S k) (fun t => fval (L k (n - S t)%nat) * fval (x (n - S t)%nat)) + fval (L k k) * fval (x k))) with (fval (b k) - rsum (n - S k) (fun t => fval (L k (n - S t)%nat) * fval (x (n - S t)%nat)) - fval (L k k) * fval (x k)) by ring.
  eapply Rle_trans; [exact D|]. pose proof eta32_pos. pose proof uro_pos. pose proof (Rabs_pos (fval (L k k))). pose proof (pos_INR (n - S k)). apply Rplus_le_compat.
  - apply Rmult_le_compat_r; [|apply gam_mono; lia]. pose proof (Rabs_pos (fval (L k k) * fval (x k))). pose proof (rsum_pos (n - S k) (fun t => Rabs (fval (L k (n - S t)%nat) * fval (x (n - S t)%nat))) (fun l _ => Rabs_pos _)). lra.
  - apply Rmult_le_compat; [apply Rmult_le_pos; lra|pose proof (gam_pow (6 + (n - S k))); lra|apply Rmult_le_compat_r; [lra|]; apply Rplus_le_compat_r, le_INR; lia|apply Rle_pow; [lra|lia]].
Qed.

(** ** Solving with a matrix right-hand side *)
Lemma solve_mat_err A n f B p b : is_mat A n n f -> is_mat B n p b -> (forall r c, (r < n)%nat -> (c < n)%nat -> fvalid (f r c)) ->
  (forall r c, (r < n)%nat -> (c < p)%nat -> fvalid (b r c)) ->
  exists d l u s X x, dec_lu A = Ret (Ok d) /\ is_mat (lu_l d) n n l /\ is_mat (lu_u d) n n u /\ is_mat (lu_p d) n n (perm_fun s) /\ perm_on n s /\
    solve_mat A B = Ret (Ok X) /\ is_mat X n p x /\
    forall j, (j < p)%nat -> (forall k, (k < n)%nat -> ffin (u k k) = true) -> (forall k, (k < n)%nat -> ffin (x k j) = true) ->
     (forall k, (k < n)%nat -> fval (u k k) <> 0) /\
     (forall i k, (i < n)%nat -> (k < n)%nat -> ffin (l i k) = true /\ ffin (u i k) = true) /\
     forall r, (r < n)%nat ->
     Rabs (fval (b (s r) j) - rsum n (fun c => fval (f (s r) c) * fval (x c j))) <=
       gam (3 * (n + 6)) * rsum n (fun k => Rabs (fval (l r k)) * rsum n (fun c => Rabs (fval (u k c) * fval (x c j)))) +
       (INR n + 1 + rsum n (fun k => (INR n + Rabs (fval (u k k))) * (Rabs (fval (l r k)) + Rabs (fval (x k j))))) * (eta32 * (1 + uro) ^ (2 * (n + 6))).
Proof.
  intros HA HB VA Vb. destruct (dec_lu_err A n f HA VA) as (L & U & P & a & s & E & HL & HU & HP & Hs & Va & BL).
  destruct (mmul_spec P B n n p _ b HP HB) as (pb & E1 & H1). destruct (subst_forward_mat_spec L n _ pb p _ HL H1) as (yv & y & E2 & H2 & S2).
  destruct (subst_backward_mat_spec U n _ yv p _ HU H2) as (xv & x & E3 & H3 & S3).
  exists (mkLU L U P), (lpart a), (upart a), s, xv, x. split; [exact E|]. split; [exact HL|]. split; [exact HU|]. split; [exact HP|]. split; [exact Hs|].
  split. { unfold solve_mat, lu_solve_mat. rewrite E. cbn [bind rtry lu_p lu_l lu_u]. rewrite E1. cbn [bind]. rewrite E2. cbn [bind]. rewrite E3. reflexivity. }
  split; [exact H3|]. intros j Hj DU FX.
  assert (VL : forall i k, (i < n)%nat -> (k < n)%nat -> fvalid (lpart a i k)). { intros i k Hi Hk. unfold lpart, delta. destruct (k <? i)%nat; [auto|]. destruct (i =? k)%nat; reflexivity. }
  assert (VU : forall i k, (i < n)%nat -> (k < n)%nat -> fvalid (upart a i k)). { intros i k Hi Hk. unfold upart. destruct (i <=? k)%nat; [auto|reflexivity]. }
  assert (Vp : forall i, (i < n)%nat -> fvalid (mulf n (perm_fun s) b i j)).
  { intros i Hi. unfold mulf. apply fsum_valid. intros k Hk. apply fvalid_mul; [|auto]. unfold perm_fun. destruct (s i =? k)%nat; reflexivity. }
  assert (C2 : fwdc n (lpart a) (fun k => mulf n (perm_fun s) b k j) (fun k => y k j)) by (intros k Hk; exact (S2 k j Hk Hj)).
  assert (C3 : bwdc n (upart a) (fun k => y k j) (fun k => x k j)) by (intros k Hk; exact (S3 k j Hk Hj)).
  pose proof (fwdc_valid n _ _ _ C2 VL Vp) as Vy.
  pose proof (bwdc_err n _ _ _ C3 VU Vy DU FX) as B3.
  assert (Fy : forall k, (k < n)%nat -> ffin (y k j) = true) by (intros k Hk; exact (proj1 (B3 k Hk))).
  pose proof (fwdc_err n _ _ _ C2 VL (fun k _ => lpart_diag a k) Vp Fy) as B2.
  assert (FA : forall i k, (i < n)%nat -> (k < n)%nat -> ffin (lpart a i k) = true /\ ffin (upart a i k) = true).
  { intros i k Hi Hk. destruct (B2 i Hi) as (_ & L2 & _). destruct (B3 i Hi) as (_ & _ & U2 & _). split.
    - destruct (Nat.lt_ge_cases k i) as [Hlt|Hge]; [apply L2, Hlt|]. unfold lpart, delta. rewrite (proj2 (Nat.ltb_ge k i) Hge). destruct (i =? k)%nat; reflexivity.
    - destruct (Nat.lt_trichotomy i k) as [Hlt|[->|Hgt]]; [apply U2; lia|apply DU; exact Hk|]. unfold upart. rewrite (proj2 (Nat.leb_gt i k) Hgt). reflexivity. }
  split; [intros k Hk; apply (B3 k Hk)|]. split; [exact FA|]. intros r Hr. destruct (B2 r Hr) as (Fb & _ & I2).
  pose proof (proj1 Hs r Hr) as Hsr. destruct (fselect n (s r) (fun k => b k j) Hsr (fun k Hk => Vb k j Hk Hj) Fb) as [_ Eb].
  change (sumn n (fun l => mul (if (s r =? l)%nat then one else zero) (b l j))) with (mulf n (perm_fun s) b r j) in Eb. rewrite Eb in I2.
  rewrite (rsum_lower_full n r) in I2; [|exact Hr|intros l Hl; rewrite fval_lpart_above by lia; ring].
  rewrite (rsum_lower_full n r) in I2; [|exact Hr|intros l Hl; rewrite fval_lpart_above, Rmult_0_l by lia; apply Rabs_R0].
  set (N := (n + 6)%nat) in *.
  pose proof (gam_pos N) as G. pose proof eta32_pos as H0. pose proof (gam_pow N) as GP. pose proof uro_pos as U0.
  assert (P0 : (1 + uro) ^ N = 1 + gam N) by (unfold gam; ring).
  assert (P2 : (1 + uro) ^ (2 * N) = (1 + gam N) * (1 + gam N)). { rewrite Nat.mul_comm, pow_mult, P0. ring. }
  assert (WK : forall q A0 C0, 0 <= A0 -> 0 <= C0 -> q <= gam n * A0 + C0 * eta32 * (1 + uro) ^ n -> q <= gam N * A0 + C0 * (eta32 * (1 + uro) ^ N)).
  { intros q A0 C0 HA0 HC0 Hq. eapply Rle_trans; [exact Hq|]. rewrite <- Rmult_assoc. apply Rplus_le_compat; [apply Rmult_le_compat_r; [exact HA0|apply gam_mono; lia]|]. apply Rmult_le_compat_l; [apply Rmult_le_pos; lra|]. apply Rle_pow; [lra|lia]. }
  pose proof (pos_INR n) as HN.
  eapply Rle_trans; [eapply (solve_combine n (gam N) (eta32 * (1 + uro) ^ N) (fun i k => fval (lpart a i k)) (fun i k => fval (upart a i k)) (fun c => fval (x c j)) (fun c => fval (y c j)) _ _ (fun k => fval (upart a k k)) r G)|].
  - apply Rmult_le_pos; lra.
  - apply WK; [apply rsum_pos; intros; apply Rabs_pos|lra|exact I2].
  - intros k Hk. destruct (B3 k Hk) as (_ & _ & _ & I3). rewrite <- Rmult_assoc.
    rewrite (sumn_ext n (fun l => if (k <=? l)%nat then fval (upart a k l) * fval (x l j) else 0) (fun l => fval (upart a k l) * fval (x l j))) in I3.
    2: { intros l Hl. destruct (Nat.leb_spec k l); [reflexivity|]. rewrite fval_upart_below by lia. symmetry. apply Rmult_0_l. }
    rewrite (sumn_ext n (fun l => if (k <=? l)%nat then Rabs (fval (upart a k l) * fval (x l j)) else 0) (fun l => Rabs (fval (upart a k l) * fval (x l j)))) in I3.
    2: { intros l Hl. destruct (Nat.leb_spec k l); [reflexivity|]. rewrite fval_upart_below, Rmult_0_l, Rabs_R0 by lia. reflexivity. }
    exact I3.
  - intros c Hc. apply WK; [apply rsum_pos; intros; apply Rabs_pos|pose proof (Rabs_pos (fval (upart a c c))); lra|]. apply BL; [exact Hr|exact Hc| |].
    + destruct (Nat.le_gt_cases r c) as [Hle|Hgt].
      * destruct (FA r c Hr Hc) as [_ F]. unfold upart in F. rewrite (proj2 (Nat.leb_le r c) Hle) in F. exact F.
      * destruct (FA r c Hr Hc) as [F _]. unfold lpart in F. rewrite (proj2 (Nat.ltb_lt c r) Hgt) in F. exact F.
    + intro Hcr. rewrite <- (upart_diag a c). split; [now apply DU|apply (B3 c Hc)].
  - pose proof (gam_3 N) as G3. apply Rplus_le_compat.
    + apply Rmult_le_compat_r; [|exact G3]. apply rsum_pos. intros l Hl. apply Rmult_le_pos; [apply Rabs_pos|]. apply rsum_pos. intros. apply Rabs_pos.
    + rewrite P2, P0. apply Req_le. ring.
Qed.

Lemma minv_err A n f : is_mat A n n f -> (forall r c, (r < n)%nat -> (c < n)%nat -> fvalid (f r c)) ->
  exists d l u s X x, dec_lu A = Ret (Ok d) /\ is_mat (lu_l d) n n l /\ is_mat (lu_u d) n n u /\ is_mat (lu_p d) n n (perm_fun s) /\ perm_on n s /\
    minv A = Ret (Ok X) /\ is_mat X n n x /\
    forall j, (j < n)%nat -> (forall k, (k < n)%nat -> ffin (u k k) = true) -> (forall k, (k < n)%nat -> ffin (x k j) = true) ->
     (forall k, (k < n)%nat -> fval (u k k) <> 0) /\
     (forall i k, (i < n)%nat -> (k < n)%nat -> ffin (l i k) = true /\ ffin (u i k) = true) /\
     forall r, (r < n)%nat ->
     Rabs ((if (s r =? j)%nat then 1 else 0) - rsum n (fun c => fval (f (s r) c) * fval (x c j))) <=
       gam (3 * (n + 6)) * rsum n (fun k => Rabs (fval (l r k)) * rsum n (fun c => Rabs (fval (u k c) * fval (x c j)))) +
       (INR n + 1 + rsum n (fun k => (INR n + Rabs (fval (u k k))) * (Rabs (fval (l r k)) + Rabs (fval (x k j))))) * (eta32 * (1 + uro) ^ (2 * (n + 6))).
Proof.
  intros HA VA. destruct (minv_solve A n f HA) as (I & EI & ->). destruct (mone_spec n) as (I' & EI' & HI). rewrite EI in EI'. injection EI' as <-.
  destruct (solve_mat_err A n f I n delta HA HI VA) as (d & l & u & s & X & x & D & HL & HU & HP & Hs & E & HX & H).
  { intros r c _ _. unfold delta. destruct (r =? c)%nat; reflexivity. }
  exists d, l, u, s, X, x. do 7 (split; [assumption|]). intros j Hj DU FX. destruct (H j Hj DU FX) as (N & F & B). split; [exact N|]. split; [exact F|].
  intros r Hr. specialize (B r Hr). unfold delta in B. assert (O1 : fval (@one f32 F32_ops) = 1) by exact fval_one. destruct (s r =? j)%nat; [rewrite O1 in B|]; exact B.
Qed.
