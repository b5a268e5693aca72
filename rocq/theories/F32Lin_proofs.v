(** Rounding errors of triangular substitution, LU decomposition and linear solve in binary32. *)
From Coq Require Import ZArith Reals Lra Lia Bool Arith SpecFloat.
From Verif Require Import Outcome Scalar Matrix_model Vector_model LU_model Matrix_spec LU_spec F32Flocq Matrix_proofs Vector_proofs Sums LU_proofs Subst_proofs F32Err_proofs.
From Verif Require Import F32_model.
#[local] Existing Instance F32_ops.
#[local] Existing Instance F32_zops.
Local Open Scope R_scope.

Lemma subn_valid (b : f32) k f : fvalid b -> (forall l, (l < k)%nat -> fvalid (f l)) -> fvalid (subn b k f).
Proof. intro Hb. induction k; intro H; [exact Hb|]. cbn [subn]. apply fvalid_sub; auto. Qed.

Lemma fsubn_err b k (a x : nat -> f32) : fvalid b -> (forall l, (l < k)%nat -> fvalid (a l) /\ fvalid (x l)) ->
  ffin (subn b k (fun l => mul (a l) (x l))) = true ->
  ffin b = true /\ (forall l, (l < k)%nat -> ffin (a l) = true /\ ffin (x l) = true) /\
  Rabs (fval b - rsum k (fun l => fval (a l) * fval (x l)) - fval (subn b k (fun l => mul (a l) (x l)))) <=
    gam k * (Rabs (fval (subn b k (fun l => mul (a l) (x l)))) + rsum k (fun l => Rabs (fval (a l) * fval (x l)))) + INR k * eta32 * (1 + uro) ^ k.
Proof.
  intros Vb. induction k as [|k IH]; intros V F.
  - split; [exact F|]. split; [lia|]. cbn [subn]. simpl. rewrite Rminus_0_r, Rminus_diag_eq, Rabs_R0 by reflexivity. unfold gam. simpl. lra.
  - cbn [subn] in *. destruct (V k ltac:(lia)) as [Va Vx].
    assert (Vc : fvalid (subn b k (fun l => mul (a l) (x l)))). { apply subn_valid; [exact Vb|]. intros l Hl. destruct (V l ltac:(lia)). now apply fvalid_mul. }
    destruct (elim_err _ _ _ Vc Va Vx F) as (Fc & Fa & Fx & E). destruct (IH ltac:(auto) Fc) as (Fb & G & B).
    split; [exact Fb|]. split. { intros l Hl. destruct (Nat.eq_dec l k) as [->|]; [auto|apply G; lia]. }
    specialize (E k _ _ B (rsum_pos _ _ (fun l _ => Rabs_pos _))). rewrite !rsum_S.
    replace (fval b - (rsum k (fun l => fval (a l) * fval (x l)) + fval (a k) * fval (x k)) - fval (sub (subn b k (fun l => mul (a l) (x l))) (mul (a k) (x k)))) with
      (fval b - rsum k (fun l => fval (a l) * fval (x l)) - fval (sub (subn b k (fun l => mul (a l) (x l))) (mul (a k) (x k))) - fval (a k) * fval (x k)) by ring.
    exact E.
Qed.

(** A division ends the chain. *)
Lemma divstep_err c d : fvalid c -> fvalid d -> ffin d = true -> ffin (div c d) = true ->
  ffin c = true /\ fval d <> 0 /\
  forall k r S, Rabs (r - fval c) <= gam k * (Rabs (fval c) + S) + INR k * eta32 * (1 + uro) ^ k -> 0 <= S ->
  Rabs (r - fval d * fval (div c d)) <= gam (1 + k) * (Rabs (fval d * fval (div c d)) + S) + (INR k + Rabs (fval d)) * eta32 * (1 + uro) ^ k.
Proof.
  pose proof uro_pos as U. pose proof eta32_pos as H0. intros Vc Vd Fd F. destruct (fdiv_err _ _ Vc Vd Fd F) as (Fc & Nd & _ & E).
  split; [exact Fc|]. split; [exact Nd|]. intros k r S I HS. set (x := fval (div c d)) in *. set (v := fval c) in *. set (e := fval d) in *.
  assert (K : Rabs (e * x - v) <= uro * Rabs (e * x) + Rabs e * eta32).
  { replace (e * x - v) with (e * (x - v / e)) by (field; exact Nd). rewrite !Rabs_mult. pose proof (Rabs_pos e). nra. }
  assert (L : Rabs v <= Rabs (e * x - v) + Rabs (e * x)) by (unfold Rabs in *; repeat destruct Rcase_abs; lra).
  assert (M : Rabs (r - e * x) <= Rabs (r - v) + Rabs (e * x - v)) by (unfold Rabs in *; repeat destruct Rcase_abs; lra).
  change (1 + k)%nat with (Datatypes.S k). rewrite gam_S. pose proof (gam_pos k) as G. assert (P1 : (1 + uro) ^ k = 1 + gam k) by (unfold gam; ring). rewrite P1 in *.
  pose proof (Rabs_pos (e * x)). pose proof (Rabs_pos e). set (g := gam k) in *.
  assert (g * Rabs v <= g * ((1 + uro) * Rabs (e * x) + Rabs e * eta32)) by (apply Rmult_le_compat_l; lra).
  assert (0 <= g * uro * S) by (apply Rmult_le_pos; nra). assert (0 <= uro * S) by nra. nra.
Qed.

(** ** Forward substitution *)
Lemma fwd_valid n (L : nat -> nat -> f32) (b x : nat -> f32) : fwd_sol n L b x -> (forall i j, (i < n)%nat -> (j < n)%nat -> fvalid (L i j)) ->
  (forall i, (i < n)%nat -> fvalid (b i)) -> forall k, (k < n)%nat -> fvalid (x k).
Proof.
  intros H VL Vb k. induction k as [k IH] using (well_founded_induction Wf_nat.lt_wf). intro Hk. rewrite (H k Hk).
  apply fvalid_div; [|auto]. apply subn_valid; [auto|]. intros l Hl. apply fvalid_mul; [apply VL; lia|]. apply IH; lia.
Qed.
Lemma weaken_bound k n A B C t : (k <= n)%nat -> 0 <= A -> 0 <= C -> INR t + C <= INR n + C -> (t <= n)%nat ->
  B <= gam k * A + (INR t + C) * eta32 * (1 + uro) ^ t -> B <= gam n * A + (INR n + C) * eta32 * (1 + uro) ^ n.
Proof.
  intros H HA HC Ht Hn HB. eapply Rle_trans; [exact HB|]. apply Rplus_le_compat.
  - apply Rmult_le_compat_r; [exact HA|]. now apply gam_mono.
  - pose proof eta32_pos. pose proof (pos_INR t). apply Rmult_le_compat; [nra|pose proof (gam_pow t); lra| |].
    + apply Rmult_le_compat_r; lra.
    + apply Rle_pow; [pose proof uro_pos; lra|exact Hn].
Qed.
Lemma fwd_err n L b x : fwd_sol n L b x -> (forall i j, (i < n)%nat -> (j < n)%nat -> fvalid (L i j)) ->
  (forall i, (i < n)%nat -> fvalid (b i)) -> (forall k, (k < n)%nat -> ffin (L k k) = true) -> (forall k, (k < n)%nat -> ffin (x k) = true) ->
  forall k, (k < n)%nat -> ffin (b k) = true /\ fval (L k k) <> 0 /\ (forall l, (l < k)%nat -> ffin (L k l) = true) /\
  Rabs (fval (b k) - rsum (S k) (fun l => fval (L k l) * fval (x l))) <=
    gam n * rsum (S k) (fun l => Rabs (fval (L k l) * fval (x l))) + (INR n + Rabs (fval (L k k))) * eta32 * (1 + uro) ^ n.
Proof.
  intros H VL Vb FD FX k Hk. pose proof (fwd_valid n L b x H VL Vb) as Vx.
  assert (Vl : forall l, (l < k)%nat -> fvalid (L k l) /\ fvalid (x l)) by (intros l Hl; split; [apply VL; lia|apply Vx; lia]).
  pose proof (FX k Hk) as F. pose proof (H k Hk) as E. rewrite E in F.
  assert (Vc : fvalid (subn (b k) k (fun l => mul (L k l) (x l)))) by (apply subn_valid; [auto|]; intros l Hl; destruct (Vl l Hl); now apply fvalid_mul).
  destruct (divstep_err _ _ Vc (VL k k Hk Hk) (FD k Hk) F) as (Fc & Nd & D).
  destruct (fsubn_err (b k) k (L k) x (Vb k Hk) Vl Fc) as (Fb & G & B). split; [exact Fb|]. split; [exact Nd|]. split. { intros l Hl. apply (G l Hl). }
  specialize (D k _ _ B (rsum_pos _ _ (fun l _ => Rabs_pos _))). rewrite <- E in D.
  rewrite !rsum_S. rewrite (Rplus_comm (rsum k (fun l => Rabs _))).
  replace (fval (b k) - (rsum k (fun l => fval (L k l) * fval (x l)) + fval (L k k) * fval (x k))) with (fval (b k) - rsum k (fun l => fval (L k l) * fval (x l)) - fval (L k k) * fval (x k)) by ring.
  apply (weaken_bound (1 + k) n _ _ _ k); try lia; try apply Rabs_pos; [|apply Rplus_le_compat_r, le_INR; lia|exact D].
  pose proof (Rabs_pos (fval (L k k) * fval (x k))). pose proof (rsum_pos k (fun l => Rabs (fval (L k l) * fval (x l))) (fun l _ => Rabs_pos _)). lra.
Qed.

(** ** Backward substitution *)
Lemma feqb_zero x : fvalid x -> ffin x = true -> eqb x zero = false <-> fval x <> 0.
Proof.
  intros V F. destruct x as [s| | |s m e]; try discriminate.
  - split; intro H; [discriminate|]. exfalso. apply H. reflexivity.
  - split; intro H; [|destruct s; reflexivity]. apply Float_prop.F2R_neq_0. simpl. destruct s; discriminate.
Qed.
Lemma bwd_valid n (L : nat -> nat -> f32) (b x : nat -> f32) : bwd_sol n L b x -> (forall i j, (i < n)%nat -> (j < n)%nat -> fvalid (L i j)) ->
  (forall i, (i < n)%nat -> fvalid (b i)) -> forall k, (k < n)%nat -> fvalid (x k).
Proof.
  intros H VL Vb. assert (K : forall t k, (n - k <= t)%nat -> (k < n)%nat -> fvalid (x k)).
  { induction t; intros k Ht Hk; [lia|]. rewrite (H k Hk). destruct (eqb _ _); [reflexivity|]. cbn [negb].
    apply fvalid_div; [|auto]. apply subn_valid; [auto|]. intros l Hl. apply fvalid_mul; [apply VL; lia|]. apply IHt; lia. }
  intros k Hk. apply (K (n - k)%nat); [lia|exact Hk].
Qed.
Lemma rsum_upper n k (f : nat -> R) : (k < n)%nat -> rsum n (fun l => if (k <=? l)%nat then f l else 0) = rsum (n - S k) (fun t => f (n - S t)%nat) + f k.
Proof.
  intro Hk. etransitivity; [exact (sum_upper R_FieldLaws n k f Hk)|]. apply (f_equal (fun s => s + f k)). symmetry. apply (sumn_rev_tail R_FieldLaws n k f Hk).
Qed.
Lemma bwd_err n L b x : bwd_sol n L b x -> (forall i j, (i < n)%nat -> (j < n)%nat -> fvalid (L i j)) ->
  (forall i, (i < n)%nat -> fvalid (b i)) -> (forall k, (k < n)%nat -> ffin (L k k) = true /\ fval (L k k) <> 0) -> (forall k, (k < n)%nat -> ffin (x k) = true) ->
  forall k, (k < n)%nat -> ffin (b k) = true /\ (forall l, (k < l < n)%nat -> ffin (L k l) = true) /\
  Rabs (fval (b k) - rsum n (fun l => if (k <=? l)%nat then fval (L k l) * fval (x l) else 0)) <=
    gam n * rsum n (fun l => if (k <=? l)%nat then Rabs (fval (L k l) * fval (x l)) else 0) + (INR n + Rabs (fval (L k k))) * eta32 * (1 + uro) ^ n.
Proof.
  intros H VL Vb FD FX k Hk. pose proof (bwd_valid n L b x H VL Vb) as Vx. destruct (FD k Hk) as [FDk Nd].
  set (a := fun t => L k (n - S t)%nat). set (y := fun t => x (n - S t)%nat).
  assert (Vl : forall l, (l < n - S k)%nat -> fvalid (a l) /\ fvalid (y l)) by (intros l Hl; split; [apply VL; lia|apply Vx; lia]).
  pose proof (FX k Hk) as F. pose proof (H k Hk) as E. rewrite (proj2 (feqb_zero _ (VL k k Hk Hk) FDk) Nd) in E. cbn [negb] in E. rewrite E in F. unfold bwd_sum in *.
  change (fun t => mul (L k (n - S t)%nat) (x (n - S t)%nat)) with (fun t => mul (a t) (y t)) in *.
  assert (Vc : fvalid (subn (b k) (n - S k) (fun l => mul (a l) (y l)))) by (apply subn_valid; [auto|]; intros l Hl; destruct (Vl l Hl); now apply fvalid_mul).
  destruct (divstep_err _ _ Vc (VL k k Hk Hk) FDk F) as (Fc & _ & D).
  destruct (fsubn_err (b k) (n - S k) a y (Vb k Hk) Vl Fc) as (Fb & G & B). split; [exact Fb|]. split.
  { intros l Hl. destruct (G (n - S l)%nat ltac:(lia)) as [A _]. unfold a in A. now replace (n - S (n - S l))%nat with l in A by lia. }
  specialize (D _ _ _ B (rsum_pos _ _ (fun l _ => Rabs_pos _))). rewrite <- E in D.
  rewrite (rsum_upper n k (fun l => fval (L k l) * fval (x l)) Hk), (rsum_upper n k (fun l => Rabs (fval (L k l) * fval (x l))) Hk).
  rewrite (Rplus_comm (rsum (n - S k) (fun t => Rabs _))). unfold a, y in D.
  replace (fval (b k) - (rsum (n - S k) (fun t => fval (L k (n - S t)%nat) * fval (x (n - S t)%nat)) + fval (L k k) * fval (x k))) with (fval (b k) - rsum (n - S k) (fun t => fval (L k (n - S t)%nat) * fval (x (n - S t)%nat)) - fval (L k k) * fval (x k)) by ring.
  apply (weaken_bound (1 + (n - S k)) n _ _ _ (n - S k)); try lia; try apply Rabs_pos; [|apply Rplus_le_compat_r, le_INR; lia|exact D].
  pose proof (Rabs_pos (fval (L k k) * fval (x k))). pose proof (rsum_pos (n - S k) (fun t => Rabs (fval (L k (n - S t)%nat) * fval (x (n - S t)%nat))) (fun l _ => Rabs_pos _)). lra.
Qed.

(** ** LU decomposition *)
Definition ferr (t : nat) (v d S : R) : Prop := Rabs (v - d) <= gam t * (Rabs d + S) + INR t * eta32 * (1 + uro) ^ t.
Definition lu_sum (a : nat -> nat -> f32) (r c t : nat) : R := rsum t (fun l => fval (a r l) * fval (a l c)).
Definition lu_abs (a : nat -> nat -> f32) (r c t : nat) : R := rsum t (fun l => Rabs (fval (a r l) * fval (a l c))).
Lemma lu_sum_ext a a' r r' c t : (forall l, (l < t)%nat -> a r l = a' r' l /\ a l c = a' l c) -> lu_sum a r c t = lu_sum a' r' c t /\ lu_abs a r c t = lu_abs a' r' c t.
Proof. intro H. split; unfold lu_sum, lu_abs; apply sumn_ext; intros l Hl; destruct (H l Hl) as [-> ->]; reflexivity. Qed.
Lemma lu_abs_pos a r c t : 0 <= lu_abs a r c t. Proof. apply rsum_pos. intros. apply Rabs_pos. Qed.

Definition lu_finv (n : nat) (f : nat -> nat -> f32) (i : nat) (a : nat -> nat -> f32) (s : nat -> nat) : Prop :=
  (forall r c, (r < n)%nat -> (c < n)%nat -> fvalid (a r c)) /\
  (forall r c, (r < n)%nat -> (c < n)%nat -> (Nat.min i r <= c)%nat -> ffin (a r c) = true ->
     ferr (Nat.min i r) (fval (f (s r) c) - lu_sum a r c (Nat.min i r)) (fval (a r c)) (lu_abs a r c (Nat.min i r))) /\
  (forall r c, (r < n)%nat -> (c < n)%nat -> (c < Nat.min i r)%nat -> ffin (a r c) = true -> ffin (a c c) = true -> fval (a c c) <> 0 ->
     Rabs (fval (f (s r) c) - lu_sum a r c c - fval (a c c) * fval (a r c)) <=
       gam (1 + c) * (Rabs (fval (a c c) * fval (a r c)) + lu_abs a r c c) + (INR c + Rabs (fval (a c c))) * eta32 * (1 + uro) ^ c).

Lemma lu_finv_init n f : (forall r c, (r < n)%nat -> (c < n)%nat -> fvalid (f r c)) -> lu_finv n f 0 f (fun r => r).
Proof.
  intro V. split; [exact V|]. split.
  - intros r c Hr Hc _ _. simpl. unfold ferr, lu_sum, lu_abs. simpl. rewrite Rminus_0_r, Rminus_diag_eq, Rabs_R0 by reflexivity. unfold gam. simpl. lra.
  - intros r c Hr Hc H. simpl in H. lia.
Qed.
Lemma lu_finv_swap n f i a s k : (i <= k < n)%nat -> perm_on n s -> lu_finv n f i a s -> lu_finv n f i (swapf i k a) (fun r => s (tswap i k r)).
Proof.
  intros Hk Hs (V & A & C). assert (Hin : (i < n)%nat) by lia. assert (Hkn : (k < n)%nat) by lia.
  assert (T : forall r, (r < n)%nat -> (tswap i k r < n)%nat) by (intros r Hr; exact (proj1 (tswap_perm n i k Hin Hkn) r Hr)).
  assert (M : forall r, Nat.min i (tswap i k r) = Nat.min i r).
  { intro r. unfold tswap. destruct (Nat.eqb_spec r i); [lia|]. destruct (Nat.eqb_spec r k); lia. }
  assert (L : forall l, (l < i)%nat -> tswap i k l = l).
  { intros l Hl. unfold tswap. destruct (Nat.eqb_spec l i); [lia|]. destruct (Nat.eqb_spec l k); lia. }
  assert (X : forall r c t, (t <= i)%nat -> lu_sum (swapf i k a) r c t = lu_sum a (tswap i k r) c t /\ lu_abs (swapf i k a) r c t = lu_abs a (tswap i k r) c t).
  { intros r c t Ht. apply lu_sum_ext. intros l Hl. rewrite !swapf_tswap, (L l) by lia. auto. }
  split; [|split].
  - intros r c Hr Hc. rewrite swapf_tswap. auto.
  - intros r c Hr Hc H1 F. rewrite !swapf_tswap in *. destruct (X r c (Nat.min i r) ltac:(lia)) as [-> ->]. rewrite <- (M r). apply A; auto. rewrite M. exact H1.
  - intros r c Hr Hc H1. rewrite !swapf_tswap. rewrite (L c) by lia. intros F1 F2 N. destruct (X r c c ltac:(lia)) as [-> ->]. apply C; auto. rewrite M. exact H1.
Qed.
Lemma lu_finv_elim n f i a s : (i < n)%nat -> lu_finv n f i a s -> lu_finv n f (S i) (elimf i a) s.
Proof.
  intros Hi (V & A & C).
  assert (VF : forall r, (r < n)%nat -> fvalid (lu_fac a i r)). { intros r Hr. unfold lu_fac. destruct (eqb _ _); cbn [negb]; [auto|]. apply fvalid_div; auto. }
  assert (R1 : forall r c, (r <= i)%nat -> elimf i a r c = a r c). { intros r c H. unfold elimf. now rewrite (proj2 (Nat.leb_le r i) H). }
  assert (R2 : forall r c, (c < i)%nat -> elimf i a r c = a r c). { intros r c H. unfold elimf. rewrite (proj2 (Nat.ltb_lt c i) H). now destruct (r <=? i)%nat. }
  assert (R3 : forall r, (i < r)%nat -> elimf i a r i = lu_fac a i r).
  { intros r H. unfold elimf. rewrite (proj2 (Nat.leb_gt r i) H), Nat.ltb_irrefl, Nat.eqb_refl. reflexivity. }
  assert (R4 : forall r c, (i < r)%nat -> (i < c)%nat -> elimf i a r c = sub (a r c) (mul (lu_fac a i r) (a i c))).
  { intros r c H H'. unfold elimf. rewrite (proj2 (Nat.leb_gt r i) H), (proj2 (Nat.ltb_ge c i) ltac:(lia)). rewrite (proj2 (Nat.eqb_neq c i)) by lia. reflexivity. }
  assert (X : forall r c t, (t <= i)%nat -> lu_sum (elimf i a) r c t = lu_sum a r c t /\ lu_abs (elimf i a) r c t = lu_abs a r c t).
  { intros r c t Ht. apply lu_sum_ext. intros l Hl. rewrite R2, R1 by lia. auto. }
  split; [|split].
  - intros r c Hr Hc. unfold elimf. destruct (r <=? i)%nat; [auto|]. destruct (c <? i)%nat; [auto|]. destruct (c =? i)%nat; [auto|]. apply fvalid_sub; [auto|]. apply fvalid_mul; auto.
  - intros r c Hr Hc H F. destruct (Nat.le_gt_cases r i) as [Hri|Hri].
    + replace (Nat.min (S i) r) with (Nat.min i r) in * by lia. destruct (X r c (Nat.min i r) ltac:(lia)) as [-> ->]. rewrite (R1 r c Hri) in F |- *. apply A; auto.
    + replace (Nat.min (S i) r) with (S i) in * by lia. rewrite (R4 r c Hri) in F |- * by lia.
      destruct (elim_err _ _ _ (V r c Hr Hc) (VF r Hr) (V i c Hi Hc) F) as (F1 & F2 & F3 & E).
      pose proof (A r c Hr Hc ltac:(lia) F1) as I. replace (Nat.min i r) with i in I by lia.
      assert (Y1 : lu_sum (elimf i a) r c (S i) = lu_sum a r c i + fval (lu_fac a i r) * fval (a i c)).
      { unfold lu_sum. rewrite rsum_S, R3, (R1 i) by lia. f_equal. apply (X r c i). lia. }
      assert (Y2 : lu_abs (elimf i a) r c (S i) = lu_abs a r c i + Rabs (fval (lu_fac a i r) * fval (a i c))).
      { unfold lu_abs. rewrite rsum_S, R3, (R1 i) by lia. f_equal. apply (X r c i). lia. }
      unfold ferr in *. rewrite Y1, Y2. specialize (E i _ _ I (lu_abs_pos _ _ _ _)). change (1 + i)%nat with (S i) in E.
      set (w := fval (sub (a r c) (mul (lu_fac a i r) (a i c)))) in *. set (p := fval (lu_fac a i r) * fval (a i c)) in *.
      replace (fval (f (s r) c) - (lu_sum a r c i + p) - w) with (fval (f (s r) c) - lu_sum a r c i - w - p) by ring. exact E.
  - intros r c Hr Hc H F1 F2 N. destruct (X r c c ltac:(lia)) as [-> ->]. destruct (Nat.eq_dec c i) as [->|Hne].
    + rewrite (R3 r) in F1 |- * by lia. rewrite (R1 i i) in F2, N |- * by lia. unfold lu_fac in F1 |- *. rewrite (proj2 (feqb_zero _ (V i i Hi Hi) F2) N) in F1 |- *. cbn [negb] in F1 |- *.
      destruct (divstep_err _ _ (V r i Hr Hi) (V i i Hi Hi) F2 F1) as (F3 & _ & D).
      pose proof (A r i Hr Hi ltac:(lia) F3) as I. replace (Nat.min i r) with i in I by lia. exact (D i _ _ I (lu_abs_pos _ _ _ _)).
    + rewrite (R2 r c) in F1 |- * by lia. rewrite (R1 c c) in F2, N |- * by lia. apply C; auto. lia.
Qed.

Lemma rsum_trunc n t (g h : nat -> R) v : (t < n)%nat -> (forall l, (l < t)%nat -> g l = h l) -> g t = v -> (forall l, (t < l < n)%nat -> g l = 0) -> rsum n g = rsum t h + v.
Proof.
  intros Ht H1 H2 H3. rewrite (sumn_trunc R_RingLaws (S t) n); [|lia|].
  - rewrite rsum_S, H2. f_equal. apply sumn_ext. exact H1.
  - intros l Hl. apply H3. lia.
Qed.

(** P A = L U up to rounding. *)
Lemma dec_lu_err A n f : is_mat A n n f -> (forall r c, (r < n)%nat -> (c < n)%nat -> fvalid (f r c)) ->
  exists L U P a s, dec_lu A = Ret (Ok (mkLU L U P)) /\ is_mat L n n (lpart a) /\ is_mat U n n (upart a) /\ is_mat P n n (perm_fun s) /\ perm_on n s /\
    (forall r c, (r < n)%nat -> (c < n)%nat -> fvalid (a r c)) /\
    forall r c, (r < n)%nat -> (c < n)%nat -> ffin (a r c) = true -> ((c < r)%nat -> ffin (a c c) = true /\ fval (a c c) <> 0) ->
      Rabs (fval (f (s r) c) - rsum n (fun l => fval (lpart a r l) * fval (upart a l c))) <=
        gam n * rsum n (fun l => Rabs (fval (lpart a r l) * fval (upart a l c))) + (INR n + Rabs (fval (upart a c c))) * eta32 * (1 + uro) ^ n.
Proof.
  intros HA V. destruct (dec_lu_gen (lu_finv n f) A n f HA (lu_finv_init n f V)) as (L & U & P & a & s & E & HL & HU & HP & Hs & (W & B & C)).
  { intros i a s k Hk _ Hs I. apply lu_finv_elim; [lia|]. apply lu_finv_swap; auto. }
  exists L, U, P, a, s. split; [exact E|]. split; [exact HL|]. split; [exact HU|]. split; [exact HP|]. split; [exact Hs|]. split; [exact W|].
  intros r c Hr Hc F D. rewrite upart_diag.
  assert (Z1 : fval (@zero f32 F32_ops) = 0) by reflexivity.
  assert (O1 : fval (@one f32 F32_ops) = 1) by exact fval_one.
  destruct (Nat.le_gt_cases r c) as [Hrc|Hrc].
  - assert (S1 : rsum n (fun l => fval (lpart a r l) * fval (upart a l c)) = lu_sum a r c r + fval (a r c)).
    { apply (rsum_trunc n r); [exact Hr| | |].
      - intros l Hl. unfold lpart, upart. rewrite (proj2 (Nat.ltb_lt l r) Hl), (proj2 (Nat.leb_le l c)) by lia. reflexivity.
      - unfold lpart, upart, delta. rewrite Nat.ltb_irrefl, Nat.eqb_refl, (proj2 (Nat.leb_le r c) Hrc), O1. ring.
      - intros l Hl. unfold lpart, delta. rewrite (proj2 (Nat.ltb_ge l r)), (proj2 (Nat.eqb_neq r l)), Z1 by lia. ring. }
    assert (S2 : rsum n (fun l => Rabs (fval (lpart a r l) * fval (upart a l c))) = lu_abs a r c r + Rabs (fval (a r c))).
    { apply (rsum_trunc n r); [exact Hr| | |].
      - intros l Hl. unfold lpart, upart. rewrite (proj2 (Nat.ltb_lt l r) Hl), (proj2 (Nat.leb_le l c)) by lia. reflexivity.
      - unfold lpart, upart, delta. rewrite Nat.ltb_irrefl, Nat.eqb_refl, (proj2 (Nat.leb_le r c) Hrc), O1. f_equal. ring.
      - intros l Hl. unfold lpart, delta. rewrite (proj2 (Nat.ltb_ge l r)), (proj2 (Nat.eqb_neq r l)), Z1, Rmult_0_l by lia. apply Rabs_R0. }
    rewrite S1, S2. pose proof (B r c Hr Hc ltac:(lia) F) as I. replace (Nat.min n r) with r in I by lia. unfold ferr in I.
    replace (fval (f (s r) c) - (lu_sum a r c r + fval (a r c))) with (fval (f (s r) c) - lu_sum a r c r - fval (a r c)) by ring. rewrite (Rplus_comm (lu_abs a r c r)).
    pose proof (lu_abs_pos a r c r). pose proof (Rabs_pos (fval (a r c))). apply (weaken_bound r n _ _ _ r); try lia; try apply Rabs_pos; [lra|apply Rplus_le_compat_r, le_INR; lia|].
    eapply Rle_trans; [exact I|]. apply Rplus_le_compat_l. pose proof eta32_pos. pose proof (gam_pow r). pose proof (Rabs_pos (fval (a c c))).
    apply Rmult_le_compat_r; [lra|]. apply Rmult_le_compat_r; lra.
  - destruct (D Hrc) as [F2 N].
    assert (S1 : rsum n (fun l => fval (lpart a r l) * fval (upart a l c)) = lu_sum a r c c + fval (a c c) * fval (a r c)).
    { apply (rsum_trunc n c); [exact Hc| | |].
      - intros l Hl. unfold lpart, upart. rewrite (proj2 (Nat.ltb_lt l r)), (proj2 (Nat.leb_le l c)) by lia. reflexivity.
      - unfold lpart, upart. rewrite (proj2 (Nat.ltb_lt c r) Hrc), Nat.leb_refl. ring.
      - intros l Hl. unfold upart. rewrite (proj2 (Nat.leb_gt l c)), Z1 by lia. ring. }
    assert (S2 : rsum n (fun l => Rabs (fval (lpart a r l) * fval (upart a l c))) = lu_abs a r c c + Rabs (fval (a c c) * fval (a r c))).
    { apply (rsum_trunc n c); [exact Hc| | |].
      - intros l Hl. unfold lpart, upart. rewrite (proj2 (Nat.ltb_lt l r)), (proj2 (Nat.leb_le l c)) by lia. reflexivity.
      - unfold lpart, upart. rewrite (proj2 (Nat.ltb_lt c r) Hrc), Nat.leb_refl. f_equal. ring.
      - intros l Hl. unfold upart. rewrite (proj2 (Nat.leb_gt l c)), Z1, Rmult_0_r by lia. apply Rabs_R0. }
    rewrite S1, S2. pose proof (C r c Hr Hc ltac:(lia) F F2 N) as I.
    replace (fval (f (s r) c) - (lu_sum a r c c + fval (a c c) * fval (a r c))) with (fval (f (s r) c) - lu_sum a r c c - fval (a c c) * fval (a r c)) by ring. rewrite (Rplus_comm (lu_abs a r c c)).
    pose proof (lu_abs_pos a r c c). pose proof (Rabs_pos (fval (a c c) * fval (a r c))). apply (weaken_bound (1 + c) n _ _ _ c); try lia; try apply Rabs_pos; [lra|apply Rplus_le_compat_r, le_INR; lia|exact I].
Qed.

(** ** Linear solve *)
Lemma rsum_le n f g : (forall l, (l < n)%nat -> f l <= g l) -> rsum n f <= rsum n g.
Proof. induction n; intro H; [apply Rle_refl|]. rewrite !rsum_S. pose proof (H n ltac:(lia)). pose proof (IHn ltac:(auto)). lra. Qed.
Lemma rsum_scal n k f : rsum n (fun l => k * f l) = k * rsum n f.
Proof. induction n; [simpl; ring|]. rewrite !rsum_S, IHn. ring. Qed.
Lemma rsum_plus n f g : rsum n (fun l => f l + g l) = rsum n f + rsum n g.
Proof. induction n; [simpl; ring|]. rewrite !rsum_S, IHn. ring. Qed.
Lemma rsum_swap m n (f : nat -> nat -> R) : rsum m (fun i => rsum n (f i)) = rsum n (fun j => rsum m (fun i => f i j)).
Proof.
  induction m. { cbn [sumn]. induction n; [reflexivity|]. rewrite rsum_S, <- IHn. simpl. ring. }
  rewrite rsum_S, IHm, <- rsum_plus. apply sumn_ext. intros j Hj. rewrite rsum_S. reflexivity.
Qed.
(** The three residuals combined, over the reals. *)
Lemma solve_combine n (g h : R) (L U : nat -> nat -> R) (x y : nat -> R) (pb : R) (pa dl : nat -> R) r : 0 <= g -> 0 <= h ->
  Rabs (pb - rsum n (fun l => L r l * y l)) <= g * rsum n (fun l => Rabs (L r l * y l)) + (INR n + 1) * h ->
  (forall l, (l < n)%nat -> Rabs (y l - rsum n (fun c => U l c * x c)) <= g * rsum n (fun c => Rabs (U l c * x c)) + (INR n + Rabs (dl l)) * h) ->
  (forall c, (c < n)%nat -> Rabs (pa c - rsum n (fun l => L r l * U l c)) <= g * rsum n (fun l => Rabs (L r l * U l c)) + (INR n + Rabs (dl c)) * h) ->
  Rabs (pb - rsum n (fun c => pa c * x c)) <= (3 * g + g * g) * rsum n (fun l => Rabs (L r l) * rsum n (fun c => Rabs (U l c * x c))) +
    (INR n + 1 + rsum n (fun l => (INR n + Rabs (dl l)) * (Rabs (L r l) + Rabs (x l)))) * (h * (1 + g)).
Proof.
  intros Hg Hh H1 H2 H3. set (W := fun l => rsum n (fun c => Rabs (U l c * x c))).
  assert (HW : forall l, 0 <= W l) by (intro; apply rsum_pos; intros; apply Rabs_pos).
  pose proof (pos_INR n) as HN.
  assert (A1 : rsum n (fun l => Rabs (L r l * y l)) <= (1 + g) * rsum n (fun l => Rabs (L r l) * W l) + h * rsum n (fun l => (INR n + Rabs (dl l)) * Rabs (L r l))).
  { rewrite <- !rsum_scal, <- rsum_plus. apply rsum_le. intros l Hl. rewrite Rabs_mult. specialize (H2 l Hl). change (rsum n (fun c => Rabs (U l c * x c))) with (W l) in H2.
    assert (Rabs (y l) <= (1 + g) * W l + (INR n + Rabs (dl l)) * h).
    { assert (E : Rabs (rsum n (fun c => U l c * x c)) <= W l) by apply rsum_abs. set (t := rsum n (fun c => U l c * x c)) in *. assert (Rabs (y l) <= Rabs (y l - t) + Rabs t) by (unfold Rabs; repeat destruct Rcase_abs; lra). lra. }
    eapply Rle_trans; [apply Rmult_le_compat_l; [apply Rabs_pos|eassumption]|]; apply Req_le; ring. }
  assert (A2 : Rabs (rsum n (fun l => L r l * (y l - rsum n (fun c => U l c * x c)))) <= g * rsum n (fun l => Rabs (L r l) * W l) + h * rsum n (fun l => (INR n + Rabs (dl l)) * Rabs (L r l))).
  { eapply Rle_trans; [apply rsum_abs|]. rewrite <- !rsum_scal, <- rsum_plus. apply rsum_le. intros l Hl. rewrite Rabs_mult. specialize (H2 l Hl). change (rsum n (fun c => Rabs (U l c * x c))) with (W l) in H2. eapply Rle_trans; [apply Rmult_le_compat_l; [apply Rabs_pos|eassumption]|]; apply Req_le; ring. }
  assert (A3 : Rabs (rsum n (fun c => (pa c - rsum n (fun l => L r l * U l c)) * x c)) <= g * rsum n (fun l => Rabs (L r l) * W l) + h * rsum n (fun l => (INR n + Rabs (dl l)) * Rabs (x l))).
  { eapply Rle_trans; [apply rsum_abs|].
    assert (E : rsum n (fun l => Rabs (L r l) * W l) = rsum n (fun c => rsum n (fun l => Rabs (L r l * U l c)) * Rabs (x c))).
    { transitivity (rsum n (fun l => rsum n (fun c => Rabs (L r l * U l c) * Rabs (x c)))).
      - apply sumn_ext. intros l Hl. unfold W. rewrite <- rsum_scal. apply sumn_ext. intros c Hc. rewrite <- !Rabs_mult. f_equal. ring.
      - rewrite rsum_swap. apply sumn_ext. intros c Hc. rewrite (Rmult_comm _ (Rabs (x c))), <- rsum_scal. apply sumn_ext. intros l Hl. ring. }
    rewrite E, <- !rsum_scal, <- rsum_plus. apply rsum_le. intros c Hc. rewrite Rabs_mult. specialize (H3 c Hc). rewrite (Rmult_comm (Rabs (pa c - _))). eapply Rle_trans; [apply Rmult_le_compat_l; [apply Rabs_pos|eassumption]|]; apply Req_le; ring. }
  assert (D : pb - rsum n (fun c => pa c * x c) = (pb - rsum n (fun l => L r l * y l)) + rsum n (fun l => L r l * (y l - rsum n (fun c => U l c * x c))) - rsum n (fun c => (pa c - rsum n (fun l => L r l * U l c)) * x c)).
  { assert (E1 : rsum n (fun l => L r l * (y l - rsum n (fun c => U l c * x c))) = rsum n (fun l => L r l * y l) - rsum n (fun l => L r l * rsum n (fun c => U l c * x c))).
    { rewrite <- (sumn_sub R_RingLaws). apply sumn_ext. intros l Hl. unfold sub, R_ops. ring. }
    assert (E2 : rsum n (fun c => (pa c - rsum n (fun l => L r l * U l c)) * x c) = rsum n (fun c => pa c * x c) - rsum n (fun c => rsum n (fun l => L r l * U l c) * x c)).
    { rewrite <- (sumn_sub R_RingLaws). apply sumn_ext. intros l Hl. unfold sub, R_ops. ring. }
    assert (E3 : rsum n (fun l => L r l * rsum n (fun c => U l c * x c)) = rsum n (fun c => rsum n (fun l => L r l * U l c) * x c)).
    { transitivity (rsum n (fun l => rsum n (fun c => L r l * U l c * x c))).
      - apply sumn_ext. intros l Hl. rewrite <- rsum_scal. apply sumn_ext. intros c Hc. ring.
      - rewrite rsum_swap. apply sumn_ext. intros c Hc. rewrite (Rmult_comm _ (x c)), <- rsum_scal. apply sumn_ext. intros l Hl. ring. }
    rewrite E1, E2, E3. ring. }
  rewrite D. set (T1 := pb - _) in *. set (T2 := rsum n (fun l => L r l * (y l - _))) in *. set (T3 := rsum n (fun c => (pa c - _) * x c)) in *.
  assert (E4 : rsum n (fun l => (INR n + Rabs (dl l)) * (Rabs (L r l) + Rabs (x l))) = rsum n (fun l => (INR n + Rabs (dl l)) * Rabs (L r l)) + rsum n (fun l => (INR n + Rabs (dl l)) * Rabs (x l))).
  { rewrite <- rsum_plus. apply sumn_ext. intros l Hl. ring. }
  rewrite E4. change (rsum n (fun l => Rabs (L r l) * rsum n (fun c => Rabs (U l c * x c)))) with (rsum n (fun l => Rabs (L r l) * W l)). set (Q := rsum n (fun l => Rabs (L r l) * W l)) in *. set (q1 := rsum n (fun l => (INR n + Rabs (dl l)) * Rabs (L r l))) in *. set (q2 := rsum n (fun l => (INR n + Rabs (dl l)) * Rabs (x l))) in *.
  assert (P1 : 0 <= q1) by (apply rsum_pos; intros; pose proof (Rabs_pos (dl l)); pose proof (Rabs_pos (L r l)); nra).
  assert (P2 : 0 <= q2) by (apply rsum_pos; intros; pose proof (Rabs_pos (dl l)); pose proof (Rabs_pos (x l)); nra).
  assert (P3 : Rabs (T1 + T2 - T3) <= Rabs T1 + Rabs T2 + Rabs T3) by (unfold Rabs; repeat destruct Rcase_abs; lra).
  set (Y := rsum n (fun l => Rabs (L r l * y l))) in *.
  assert (B1 : g * Y <= g * ((1 + g) * Q + h * q1)) by (apply Rmult_le_compat_l; assumption).
  assert (B2 : 0 <= h * q2 * g) by (apply Rmult_le_pos; nra). assert (B3 : 0 <= (INR n + 1) * h * g) by (apply Rmult_le_pos; nra). nra.
Qed.

Lemma fval_lpart_above a r l : (r < l)%nat -> fval (lpart a r l) = 0.
Proof. intro H. unfold lpart, delta. rewrite (proj2 (Nat.ltb_ge l r)), (proj2 (Nat.eqb_neq r l)) by lia. reflexivity. Qed.
Lemma fval_upart_below a r l : (l < r)%nat -> fval (upart a r l) = 0.
Proof. intro H. unfold upart. rewrite (proj2 (Nat.leb_gt r l)) by lia. reflexivity. Qed.
Lemma rsum_lower_full n k (g : nat -> R) : (k < n)%nat -> (forall l, (k < l < n)%nat -> g l = 0) -> rsum (S k) g = rsum n g.
Proof. intros Hk H. symmetry. apply (sumn_trunc R_RingLaws (S k) n); [lia|]. intros l Hl. apply H. lia. Qed.
Lemma gam_3 n : 3 * gam n + gam n * gam n <= gam (3 * n).
Proof.
  unfold gam at 4. rewrite Nat.mul_comm, pow_mult. replace ((1 + uro) ^ n) with (1 + gam n) by (unfold gam; ring). pose proof (gam_pos n) as G. set (g := gam n) in *. simpl. nra.
Qed.

Lemma solve_vec_err A n f v b : is_mat A n n f -> is_col v n b -> (forall r c, (r < n)%nat -> (c < n)%nat -> fvalid (f r c)) -> (forall r, (r < n)%nat -> fvalid (b r)) ->
  exists d l u s w x, dec_lu A = Ret (Ok d) /\ is_mat (lu_l d) n n l /\ is_mat (lu_u d) n n u /\ is_mat (lu_p d) n n (perm_fun s) /\ perm_on n s /\
    solve_vec A v = Ret (Ok w) /\ is_col w n x /\
    ((forall k, (k < n)%nat -> ffin (u k k) = true /\ fval (u k k) <> 0) -> (forall k, (k < n)%nat -> ffin (x k) = true) ->
     (forall i j, (i < n)%nat -> (j < n)%nat -> ffin (l i j) = true /\ ffin (u i j) = true) /\
     forall r, (r < n)%nat ->
     Rabs (fval (b (s r)) - rsum n (fun c => fval (f (s r) c) * fval (x c))) <=
       gam (3 * n) * rsum n (fun k => Rabs (fval (l r k)) * rsum n (fun c => Rabs (fval (u k c) * fval (x c)))) +
       (INR n + 1 + rsum n (fun k => (INR n + Rabs (fval (u k k))) * (Rabs (fval (l r k)) + Rabs (fval (x k))))) * (eta32 * (1 + uro) ^ (2 * n))).
Proof.
  intros HA Hv VA Vb. destruct (dec_lu_err A n f HA VA) as (L & U & P & a & s & E & HL & HU & HP & Hs & Va & B).
  destruct (mmul_vec_spec P n n _ v b HP Hv) as (pb & E1 & H1). destruct (subst_forward_vec_spec L n _ pb _ HL H1) as (yv & y & E2 & H2 & S2).
  destruct (subst_backward_vec_spec U n _ yv _ HU H2) as (xv & x & E3 & H3 & S3).
  exists (mkLU L U P), (lpart a), (upart a), s, xv, x. split; [exact E|]. split; [exact HL|]. split; [exact HU|]. split; [exact HP|]. split; [exact Hs|].
  split. { unfold solve_vec. rewrite E. cbn [bind runwrap lu_p lu_l lu_u]. rewrite E1. cbn [bind]. rewrite E2. cbn [bind]. rewrite E3. reflexivity. }
  split; [exact H3|]. intros DU FX.
  assert (VL : forall i j, (i < n)%nat -> (j < n)%nat -> fvalid (lpart a i j)). { intros i j Hi Hj. unfold lpart, delta. destruct (j <? i)%nat; [auto|]. destruct (i =? j)%nat; reflexivity. }
  assert (VU : forall i j, (i < n)%nat -> (j < n)%nat -> fvalid (upart a i j)). { intros i j Hi Hj. unfold upart. destruct (i <=? j)%nat; [auto|reflexivity]. }
  assert (Vp : forall i, (i < n)%nat -> fvalid (sumn n (fun k => mul (perm_fun s i k) (b k)))).
  { intros i Hi. apply fsum_valid. intros k Hk. apply fvalid_mul; [|auto]. unfold perm_fun. destruct (s i =? k)%nat; reflexivity. }
  pose proof (fwd_valid n _ _ _ S2 VL Vp) as Vy.
  pose proof (bwd_err n _ _ _ S3 VU Vy DU FX) as B3.
  assert (Fy : forall k, (k < n)%nat -> ffin (y k) = true) by (intros k Hk; exact (proj1 (B3 k Hk))).
  assert (FL : forall k, (k < n)%nat -> ffin (lpart a k k) = true). { intros k Hk. rewrite lpart_diag. reflexivity. }
  pose proof (fwd_err n _ _ _ S2 VL Vp FL Fy) as B2.
  assert (FA : forall i j, (i < n)%nat -> (j < n)%nat -> ffin (lpart a i j) = true /\ ffin (upart a i j) = true).
  { intros i j Hi Hj. destruct (B2 i Hi) as (_ & _ & L2 & _). destruct (B3 i Hi) as (_ & U2 & _). split.
    - destruct (Nat.lt_ge_cases j i) as [Hlt|Hge]; [apply L2, Hlt|]. unfold lpart, delta. rewrite (proj2 (Nat.ltb_ge j i) Hge). destruct (i =? j)%nat; reflexivity.
    - destruct (Nat.lt_trichotomy i j) as [Hlt|[->|Hgt]]; [apply U2; lia|apply DU; exact Hj|]. unfold upart. rewrite (proj2 (Nat.leb_gt i j) Hgt). reflexivity. }
  split; [exact FA|]. intros r Hr. destruct (B2 r Hr) as (Fb & _ & _ & I2).
  pose proof (proj1 Hs r Hr) as Hsr. destruct (fselect n (s r) b Hsr Vb Fb) as [_ Eb].
  change (fun l => mul (if (s r =? l)%nat then one else zero) (b l)) with (fun l => mul (perm_fun s r l) (b l)) in Eb. rewrite Eb in I2.
  assert (O1 : fval (@one f32 F32_ops) = 1) by exact fval_one. rewrite lpart_diag, O1, Rabs_R1 in I2.
  rewrite (rsum_lower_full n r) in I2; [|exact Hr|intros l Hl; rewrite fval_lpart_above by lia; ring].
  rewrite (rsum_lower_full n r) in I2; [|exact Hr|intros l Hl; rewrite fval_lpart_above, Rmult_0_l by lia; apply Rabs_R0].
  pose proof (gam_pos n) as G. pose proof eta32_pos as H0. pose proof (gam_pow n) as GP.
  assert (P0 : (1 + uro) ^ n = 1 + gam n) by (unfold gam; ring).
  assert (P2 : (1 + uro) ^ (2 * n) = (1 + gam n) * (1 + gam n)). { rewrite Nat.mul_comm, pow_mult, P0. ring. }
  eapply Rle_trans; [eapply (solve_combine n (gam n) (eta32 * (1 + uro) ^ n) (fun i j => fval (lpart a i j)) (fun i j => fval (upart a i j)) (fun c => fval (x c)) (fun c => fval (y c)) _ _ (fun k => fval (upart a k k)) r G)|].
  - apply Rmult_le_pos; lra.
  - rewrite <- Rmult_assoc. exact I2.
  - intros k Hk. destruct (B3 k Hk) as (_ & _ & I3). rewrite <- Rmult_assoc.
    rewrite (sumn_ext n (fun l => if (k <=? l)%nat then fval (upart a k l) * fval (x l) else 0) (fun l => fval (upart a k l) * fval (x l))) in I3.
    2: { intros l Hl. destruct (Nat.leb_spec k l); [reflexivity|]. rewrite fval_upart_below by lia. symmetry. apply Rmult_0_l. }
    rewrite (sumn_ext n (fun l => if (k <=? l)%nat then Rabs (fval (upart a k l) * fval (x l)) else 0) (fun l => Rabs (fval (upart a k l) * fval (x l)))) in I3.
    2: { intros l Hl. destruct (Nat.leb_spec k l); [reflexivity|]. rewrite fval_upart_below, Rmult_0_l, Rabs_R0 by lia. reflexivity. }
    exact I3.
  - intros c Hc. rewrite <- Rmult_assoc. apply B; [exact Hr|exact Hc| |].
    + destruct (Nat.le_gt_cases r c) as [Hle|Hgt].
      * destruct (FA r c Hr Hc) as [_ F]. unfold upart in F. rewrite (proj2 (Nat.leb_le r c) Hle) in F. exact F.
      * destruct (FA r c Hr Hc) as [F _]. unfold lpart in F. rewrite (proj2 (Nat.ltb_lt c r) Hgt) in F. exact F.
    + intros _. destruct (DU c Hc) as [D1 D2]. rewrite upart_diag in D1, D2. auto.
  - apply Rplus_le_compat.
    + apply Rmult_le_compat_r; [|apply gam_3]. apply rsum_pos. intros k Hk. apply Rmult_le_pos; [apply Rabs_pos|]. apply rsum_pos. intros. apply Rabs_pos.
    + rewrite P2, P0. apply Req_le. ring.
Qed.

(** The LU theorem in terms of the returned factors. *)
Lemma dec_lu_err_api (A : matrix f32) n f : is_mat A n n f -> (forall r c, (r < n)%nat -> (c < n)%nat -> fvalid (f r c)) ->
  exists d l u s, dec_lu A = Ret (Ok d) /\ is_mat (lu_l d) n n l /\ is_mat (lu_u d) n n u /\ is_mat (lu_p d) n n (perm_fun s) /\ perm_on n s /\
    unit_lower n l /\ upper n n u /\
    forall r c, (r < n)%nat -> (c < n)%nat -> ffin (l r c) = true -> ffin (u r c) = true -> ((c < r)%nat -> ffin (u c c) = true /\ fval (u c c) <> 0) ->
      Rabs (fval (f (s r) c) - rsum n (fun k => fval (l r k) * fval (u k c))) <=
        gam n * rsum n (fun k => Rabs (fval (l r k) * fval (u k c))) + (INR n + Rabs (fval (u c c))) * eta32 * (1 + uro) ^ n.
Proof.
  intros HA V. destruct (dec_lu_err A n f HA V) as (L & U & P & a & s & E & HL & HU & HP & Hs & Va & B).
  exists (mkLU L U P), (lpart a), (upart a), s. split; [exact E|]. split; [exact HL|]. split; [exact HU|]. split; [exact HP|]. split; [exact Hs|].
  split; [apply lpart_unit|]. split; [apply upart_upper|].
  intros r c Hr Hc Fl Fu D. apply B; auto.
  - unfold lpart, upart in Fl, Fu. destruct (c <? r)%nat eqn:E1; [exact Fl|]. replace (r <=? c)%nat with true in Fu by (symmetry; apply Nat.leb_le; apply Nat.ltb_ge in E1; lia). exact Fu.
  - intros H. specialize (D H). rewrite upart_diag in D. exact D.
Qed.
Lemma fnz x : fvalid x -> ffin x = true -> eqb x zero = false -> fval x <> 0.
Proof. intros V F E. exact (proj1 (feqb_zero x V F) E). Qed.
