(** Forward errors of linear solves, and the determinant, in binary64. *)
From Coq Require Import ZArith Reals Lra Lia Bool Arith List SpecFloat Permutation.
From Flocq Require Import Core.
From Verif Require Import Outcome Scalar Matrix_model Vector_model LU_model Matrix_spec LU_spec Det_spec F64_spec F64Det_spec F64Flocq Matrix_proofs Vector_proofs Sums LU_proofs Subst_proofs Det_proofs
  F64Err_proofs F64Lin_proofs F64Mat_proofs F64QR_proofs.
Import ListNotations.
Local Open Scope R_scope.

Definition lsum (l : list R) : R := fold_right Rplus 0 l.
Lemma lsum_perm l l' : Permutation l l' -> lsum l = lsum l'.
Proof. induction 1; cbn; try rewrite IHPermutation; try lra; try (unfold lsum in *; lra). Qed.
Lemma lsum_app l l' : lsum (l ++ l') = lsum l + lsum l'.
Proof. unfold lsum. induction l as [|x l IH]; cbn [app fold_right]; [ring|]. rewrite IH. ring. Qed.
Lemma rsum_lsum n g : rsum n g = lsum (map g (seq 0 n)).
Proof. induction n; [reflexivity|]. rewrite rsum_S, seq_S, map_app, lsum_app, IHn. cbn. lra. Qed.

Lemma rsum_perm n s g : perm_on n s -> rsum n (fun r => g (s r)) = rsum n g.
Proof.
  intros [H1 H2]. rewrite !rsum_lsum. rewrite <- (map_map s g). apply lsum_perm, Permutation_map.
  apply NoDup_Permutation_bis.
  - apply (proj2 (NoDup_nth _ 0%nat)). intros i j Hi Hj. rewrite map_length, seq_length in Hi, Hj.
    rewrite !(nth_indep (map s (seq 0 n)) 0%nat (s 0%nat)) by (rewrite map_length, seq_length; lia).
    rewrite !map_nth, !seq_nth by lia. cbn. intro E. now apply H2.
  - rewrite map_length. lia.
  - intros x Hx. apply in_map_iff in Hx. destruct Hx as (y & <- & Hy). apply in_seq in Hy. apply in_seq. specialize (H1 y ltac:(lia)). lia.
Qed.

Lemma rsum_delta n i (z : nat -> R) : (i < n)%nat -> rsum n (fun c => (if (i =? c)%nat then 1 else 0) * z c) = z i.
Proof.
  intro H. assert (K : forall m, rsum m (fun c => (if (i =? c)%nat then 1 else 0) * z c) = if (i <? m)%nat then z i else 0).
  { induction m; [reflexivity|]. rewrite rsum_S, IHm. destruct (Nat.eqb_spec i m) as [->|]; [|].
    - rewrite Nat.ltb_irrefl. replace (m <? S m)%nat with true by (symmetry; apply Nat.ltb_lt; lia). lra.
    - destruct (i <? m)%nat eqn:E1; [apply Nat.ltb_lt in E1|apply Nat.ltb_ge in E1].
      + replace (i <? S m)%nat with true by (symmetry; apply Nat.ltb_lt; lia). lra.
      + replace (i <? S m)%nat with false by (symmetry; apply Nat.ltb_ge; lia). lra. }
  rewrite K. replace (i <? n)%nat with true by (symmetry; apply Nat.ltb_lt; lia). reflexivity.
Qed.

Lemma rsum_eq n f g : (forall l, (l < n)%nat -> f l = g l) -> rsum n f = rsum n g.
Proof. intro H. induction n; [reflexivity|]. rewrite !rsum_S, IHn, H; auto. Qed.

Lemma fwd_from_residual n (a inv : nat -> nat -> R) s (b x y B : nat -> R) : perm_on n s -> left_inverse n inv a ->
  (forall r, (r < n)%nat -> rsum n (fun c => a r c * y c) = b r) ->
  (forall r, (r < n)%nat -> Rabs (b (s r) - rsum n (fun c => a (s r) c * x c)) <= B r) ->
  forall i, (i < n)%nat -> Rabs (x i - y i) <= rsum n (fun r => Rabs (inv i (s r)) * B r).
Proof.
  intros Hs HI HY HB i Hi.
  assert (E : y i - x i = rsum n (fun r => inv i r * (b r - rsum n (fun c => a r c * x c)))).
  { rewrite <- (rsum_delta n i (fun c => y c - x c) Hi).
    rewrite (rsum_eq n _ (fun c => rsum n (fun r => inv i r * a r c * (y c - x c)))).
    2:{ intros c Hc. rewrite <- (HI i c Hi Hc), Rmult_comm, <- rsum_scal. apply rsum_eq. intros. ring. }
    rewrite <- rsum_swap. apply rsum_eq. intros r Hr. rewrite <- (HY r Hr).
    rewrite (rsum_eq n _ (fun c => inv i r * (a r c * y c) + (- inv i r) * (a r c * x c))) by (intros; ring).
    rewrite rsum_plus, !rsum_scal. ring. }
  rewrite Rabs_minus_sym, E, <- (rsum_perm n s (fun r => inv i r * (b r - rsum n (fun c => a r c * x c))) Hs).
  eapply Rle_trans; [apply rsum_abs|]. apply rsum_le. intros r Hr. rewrite Rabs_mult. apply Rmult_le_compat_l; [apply Rabs_pos|]. now apply HB.
Qed.

(** ** The product of the pivots *)
Lemma prodn_valid n (u : nat -> f64) : (forall k, (k < n)%nat -> fvalid (u k)) -> fvalid (prodn n u).
Proof. induction n; intro H; [reflexivity|]. cbn [prodn]. apply fvalid_mul; auto. Qed.

Lemma tails_pos n u : 0 <= tails n u.
Proof. induction n; cbn; [lra|]. pose proof (Rmult_le_pos _ _ IHn (Rabs_pos (u n))). lra. Qed.

Lemma fprod_err n (u : nat -> f64) : (forall k, (k < n)%nat -> fvalid (u k)) -> ffin (prodn n u) = true ->
  Rabs (fval (prodn n u) - rprod n (fun k => fval (u k))) <=
    gam n * Rabs (rprod n (fun k => fval (u k))) + eta64 * (1 + uro) ^ n * tails n (fun k => fval (u k)).
Proof.
  induction n as [|n IH]; intros V F.
  - cbn [prodn rprod tails]. rewrite fval_one, Rminus_diag_eq, Rabs_R0 by reflexivity. unfold gam. simpl. lra.
  - cbn [prodn] in *. cbn [rprod tails].
    destruct (fmul_err _ _ (prodn_valid n u ltac:(auto)) (V n ltac:(lia)) F) as (F1 & F2 & E & _).
    specialize (IH ltac:(auto) F1). set (p := fval (prodn n u)) in *. set (P := rprod n _) in *. set (T := tails n _) in *. set (x := fval (u n)) in *.
    set (w := fval (mul (prodn n u) (u n))) in *.
    replace (w - P * x) with ((w - p * x) + (p - P) * x) by ring. eapply Rle_trans; [apply Rabs_triang|].
    assert (H1 : Rabs (p * x) <= Rabs (P * x) + Rabs ((p - P) * x)). { replace (p * x) with (P * x + (p - P) * x) by ring. apply Rabs_triang. }
    assert (H2 : Rabs ((p - P) * x) <= (gam n * Rabs P + eta64 * (1 + uro) ^ n * T) * Rabs x).
    { rewrite Rabs_mult. apply Rmult_le_compat_r; [apply Rabs_pos|exact IH]. }
    pose proof uro_pos as U0. pose proof eta64_pos as E0.
    assert (H3 : uro * Rabs (p * x) <= uro * (Rabs (P * x) + Rabs ((p - P) * x))) by (apply Rmult_le_compat_l; lra).
    assert (H4 : (1 + uro) * Rabs ((p - P) * x) <= (1 + uro) * ((gam n * Rabs P + eta64 * (1 + uro) ^ n * T) * Rabs x)) by (apply Rmult_le_compat_l; lra).
    assert (H5 : eta64 * 1 <= eta64 * (1 + uro) ^ S n) by (apply Rmult_le_compat_l; [lra|apply gam_pow]).
    rewrite gam_S. rewrite (Rabs_mult P x) in *.
    replace ((1 + uro) ^ S n) with ((1 + uro) * (1 + uro) ^ n) in * by reflexivity. lra.
Qed.

Lemma rprod_prodn n u : @prodn R R_ops n u = rprod n u.
Proof. induction n; [reflexivity|]. cbn [prodn rprod]. rewrite IHn. reflexivity. Qed.

Lemma fmul_unit (e x : f64) : e = one \/ e = neg one -> fvalid x -> ffin (mul e x) = true -> ffin x = true /\ Rabs (fval (mul e x)) = Rabs (fval x).
Proof.
  intros He Vx F. assert (Ve : fvalid e) by (destruct He as [-> | ->]; vm_compute; reflexivity).
  destruct (fmul_fin e x Ve Vx F) as (_ & Fx & ->). split; [exact Fx|].
  assert (fval e = 1 \/ fval e = -1) as [-> | ->].
  { destruct He as [-> | ->]; [left; exact fval_one|right]. unfold fval. cbn. unfold F2R. cbn. lra. }
  - now rewrite Rmult_1_l, rnd_fval.
  - replace (-1 * fval x) with (- fval x) by ring. destruct (fneg_good x (conj Vx Fx)) as [[Vn _] En]. rewrite <- En, rnd_fval, En by exact Vn. apply Rabs_Ropp.
Qed.

Lemma mdet_err (pow : f64 -> nat -> f64) (A : matrix f64) n f : (3 <= n)%nat -> is_mat A n n f ->
  (forall r c, (r < n)%nat -> (c < n)%nat -> fvalid (f r c)) ->
  (forall k, pow (neg one) k = one \/ pow (neg one) k = neg one) ->
  exists d l u s t, dec_lu A = Ret (Ok d) /\ is_mat (lu_l d) n n l /\ is_mat (lu_u d) n n u /\ is_mat (lu_p d) n n (perm_fun s) /\ perm_on n s /\
    mdet pow A = Ret t /\
    ((forall i j, (i < n)%nat -> (j < n)%nat -> ffin (l i j) = true /\ ffin (u i j) = true) ->
     (forall k, (k < n)%nat -> fval (u k k) <> 0) -> ffin t = true ->
     exists g : nat -> nat -> R,
       (forall r c, (r < n)%nat -> (c < n)%nat ->
         Rabs (fval (f (s r) c) - g (s r) c) <=
           gam n * rsum n (fun k => Rabs (fval (l r k) * fval (u k c))) + (INR n + Rabs (fval (u c c))) * eta64 * (1 + uro) ^ n) /\
       forall D, is_det R_ops n D ->
         Rabs (Rabs (fval t) - Rabs (D g)) <= gam n * Rabs (D g) + eta64 * (1 + uro) ^ n * tails n (fun k => fval (u k k))).
Proof.
  intros Hn HA V HP1. destruct (dec_lu_err A n f HA V) as (Lm & U & P & a & s & E & HL & HU & HP & Hs & Va & B).
  set (body := fun i det => bind (mget U i i) (fun x => Ret (mul det x))).
  assert (Hloop : for_loop 0 n body one = Ret (prodn n (fun i => a i i))).
  { destruct (for_loop_ind (fun k x => x = prodn k (fun i => a i i)) body 0 n one) as (x & E1 & ->); [lia|reflexivity| |exact E1].
    intros i x Hi ->. unfold body. rewrite (is_mat_get _ _ _ _ i i HU) by lia. cbn [bind]. eexists; split; [reflexivity|]. rewrite upart_diag. reflexivity. }
  assert (Ht : exists e, (e = one \/ e = neg one) /\ mdet pow A = Ret (mul e (prodn n (fun i => a i i)))).
  { destruct (is_mat_dim _ _ _ _ HA) as [R C]. unfold mdet. rewrite R, C, Nat.eqb_refl. cbn [rassert bind].
    destruct (Nat.eqb_spec n 1); [lia|]. destruct (Nat.eqb_spec n 2); [lia|]. rewrite E. cbn [bind lu_u lu_p]. fold body. rewrite Hloop. cbn [bind].
    match goal with |- context [for_loop 0 n ?body 0%nat] => set (bd2 := body) end.
    destruct (for_loop_ind (fun k (c : nat) => True) bd2 0 n 0%nat) as (c & E2 & _); [lia|exact I| |].
    - intros i c Hi _. unfold bd2. rewrite (is_mat_get _ _ _ _ i i HP) by lia. cbn [bind]. destruct (negb _); eexists; split; reflexivity || exact I.
    - rewrite E2. cbn [bind]. destruct (Nat.eqb_spec c 0).
      + exists one. split; [now left|reflexivity].
      + cbn [negb]. rewrite usub_ok by lia. exists (pow (neg one) (c - 1)%nat). split; [apply HP1|reflexivity]. }
  destruct Ht as (e & He & Ht).
  exists (mkLU Lm U P), (lpart a), (upart a), s, (mul e (prodn n (fun i => a i i))).
  split; [exact E|]. split; [exact HL|]. split; [exact HU|]. split; [exact HP|]. split; [exact Hs|]. split; [exact Ht|].
  intros FF NZ Ft.
  set (ar := fun i j => fval (a i j)).
  assert (Hlr : forall r k, @lpart R R_ops ar r k = fval (lpart a r k)).
  { intros r k. unfold lpart, ar, delta. destruct (k <? r)%nat; [reflexivity|]. destruct (r =? k)%nat; [symmetry; exact fval_one|reflexivity]. }
  assert (Hur : forall r k, @upart R R_ops ar r k = fval (upart a r k)).
  { intros r k. unfold upart, ar. destruct (r <=? k)%nat; reflexivity. }
  (* the inverse of s *)
  assert (Hinv : exists si, forall r, (r < n)%nat -> si (s r) = r).
  { exists (fun j => hd 0%nat (filter (fun r => (s r =? j)%nat) (seq 0 n))). intros r Hr.
    destruct (filter (fun r0 => (s r0 =? s r)%nat) (seq 0 n)) as [|x l] eqn:Ef.
    - exfalso. assert (In r []) as []. rewrite <- Ef. apply filter_In. split; [apply in_seq; lia|apply Nat.eqb_refl].
    - cbn. assert (Hx : In x (filter (fun r0 => (s r0 =? s r)%nat) (seq 0 n))) by (rewrite Ef; now left).
      apply filter_In in Hx. destruct Hx as [Hx1 Hx2]. apply in_seq in Hx1. apply Nat.eqb_eq in Hx2. apply (proj2 Hs); auto; lia. }
  destruct Hinv as (si & Hsi).
  set (g := fun i c => rsum n (fun k => fval (lpart a (si i) k) * fval (upart a k c))). exists g. split.
  - intros r c Hr Hc. unfold g. rewrite Hsi by exact Hr. destruct (FF r c Hr Hc) as [Fl Fu]. apply B; auto.
    + unfold lpart, upart in Fl, Fu. destruct (c <? r)%nat eqn:E1; [exact Fl|]. replace (r <=? c)%nat with true in Fu by (symmetry; apply Nat.leb_le; apply Nat.ltb_ge in E1; lia). exact Fu.
    + intros H. split; [destruct (FF c c Hc Hc) as [_ F1]|specialize (NZ c Hc)]; rewrite upart_diag in *; assumption.
  - intros D HD.
    assert (ED : Rabs (D g) = Rabs (rprod n (fun k => fval (a k k)))).
    { rewrite (det_of_lu (fl_ring R_ops R_FieldLaws) n D HD g ar s Hs).
      - rewrite rprod_prodn. cbn [mul R_ops]. rewrite Rabs_mult. destruct (det_sign (fl_ring R_ops R_FieldLaws) n D HD s Hs) as [-> | ->]; cbn [one neg R_ops]; rewrite ?Rabs_Ropp, Rabs_R1, Rmult_1_l; reflexivity.
      - intros r c Hr Hc. unfold g, mulf. rewrite Hsi by exact Hr. apply rsum_eq. intros k Hk. rewrite Hlr, Hur. reflexivity. }
    assert (Vp : fvalid (prodn n (fun i => a i i))) by (apply prodn_valid; auto).
    destruct (fmul_unit e _ He Vp Ft) as (Fp & ->). rewrite ED.
    eapply Rle_trans; [apply Rabs_triang_inv2|].
    pose proof (fprod_err n (fun i => a i i) (fun k Hk => Va k k Hk Hk) Fp) as H.
    replace (tails n (fun k => fval (upart a k k))) with (tails n (fun k => fval (a k k))); [exact H|].
    clear. induction n; [reflexivity|]. cbn [tails]. rewrite IHn, upart_diag. reflexivity.
Qed.

Lemma mdet1_exact (pow : f64 -> nat -> f64) (A : matrix f64) f : is_mat A 1 1 f -> mdet pow A = Ret (f 0%nat 0%nat).
Proof.
  intros HA. destruct (is_mat_dim _ _ _ _ HA) as [R C]. unfold mdet. rewrite R, C. cbn. apply (is_mat_get _ _ _ _ 0%nat 0%nat HA); lia.
Qed.

Lemma mdet2_err (pow : f64 -> nat -> f64) (A : matrix f64) f : is_mat A 2 2 f ->
  (forall r c, (r < 2)%nat -> (c < 2)%nat -> fvalid (f r c)) ->
  exists t, mdet pow A = Ret t /\
    (ffin t = true ->
     (forall r c, (r < 2)%nat -> (c < 2)%nat -> ffin (f r c) = true) /\
     Rabs (fval t - (fval (f 0%nat 0%nat) * fval (f 1%nat 1%nat) - fval (f 0%nat 1%nat) * fval (f 1%nat 0%nat))) <=
       gam 2 * (Rabs (fval (f 0%nat 0%nat) * fval (f 1%nat 1%nat)) + Rabs (fval (f 0%nat 1%nat) * fval (f 1%nat 0%nat))) + 2 * eta64 * (1 + uro)).
Proof.
  intros HA V. destruct (is_mat_dim _ _ _ _ HA) as [R C].
  exists (sub (mul (f 0 0) (f 1 1)) (mul (f 0 1) (f 1 0)))%nat. split.
  { unfold mdet. rewrite R, C. cbn [Nat.eqb rassert bind].
    rewrite !(is_mat_get _ _ _ _ _ _ HA) by lia. reflexivity. }
  intro F. destruct (fsub_err _ _ (fvalid_mul _ _ (V 0 0 ltac:(lia) ltac:(lia)) (V 1 1 ltac:(lia) ltac:(lia)))%nat
    (fvalid_mul _ _ (V 0 1 ltac:(lia) ltac:(lia)) (V 1 0 ltac:(lia) ltac:(lia)))%nat F) as (F1 & F2 & E & _).
  destruct (fmul_err _ _ (V 0 0 ltac:(lia) ltac:(lia))%nat (V 1 1 ltac:(lia) ltac:(lia))%nat F1) as (G1 & G2 & E1 & _).
  destruct (fmul_err _ _ (V 0 1 ltac:(lia) ltac:(lia))%nat (V 1 0 ltac:(lia) ltac:(lia))%nat F2) as (G3 & G4 & E2 & _).
  split. { intros [|[|r]] [|[|c]] Hr Hc; auto; lia. }
  set (w := fval (sub _ _)) in *. set (p := fval (mul (f 0%nat 0%nat) _)) in *. set (q := fval (mul (f 0%nat 1%nat) _)) in *.
  set (P := _ * fval (f 1%nat 1%nat)) in *. set (Q := _ * fval (f 1%nat 0%nat)) in *.
  replace (w - (P - Q)) with ((w - (p - q)) + ((p - P) - (q - Q))) by ring.
  assert (H : Rabs (p - q) <= Rabs P + Rabs Q + Rabs (p - P) + Rabs (q - Q)).
  { replace (p - q) with (P - Q + ((p - P) - (q - Q))) by ring. eapply Rle_trans; [apply Rabs_triang|].
    pose proof (Rabs_triang P (- Q)) as A1. pose proof (Rabs_triang (p - P) (- (q - Q))) as A2. rewrite Rabs_Ropp in A1, A2.
    replace (P - Q) with (P + - Q) by ring. replace (p - P - (q - Q)) with (p - P + - (q - Q)) by ring. lra. }
  eapply Rle_trans; [apply Rabs_triang|].
  assert (A2 : Rabs (p - P - (q - Q)) <= Rabs (p - P) + Rabs (q - Q)).
  { pose proof (Rabs_triang (p - P) (- (q - Q))) as A2. rewrite Rabs_Ropp in A2. replace (p - P - (q - Q)) with (p - P + - (q - Q)) by ring. lra. }
  pose proof uro_pos.
  assert (H1 : uro * Rabs (p - q) <= uro * (Rabs P + Rabs Q + Rabs (p - P) + Rabs (q - Q))) by (apply Rmult_le_compat_l; lra).
  assert (H2 : (1 + uro) * (Rabs (p - P) + Rabs (q - Q)) <= (1 + uro) * (uro * (Rabs P + Rabs Q) + 2 * eta64)) by (apply Rmult_le_compat_l; lra).
  unfold gam. simpl. lra.
Qed.
