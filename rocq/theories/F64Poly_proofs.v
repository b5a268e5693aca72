(** Rounding errors of polynomial arithmetic in binary64. *)
From Coq Require Import Arith Lia List Bool ZArith Reals Lra Psatz SpecFloat.
From Flocq Require Import Core IEEE754.BinarySingleNaN.
From Verif Require Import Outcome Scalar RealOps Approx_model Poly_model Int_model Poly_spec Matrix_spec Vector_proofs Poly_proofs PolyDiv_proofs F64_spec F64Poly_spec F64Flocq F64Err_proofs Int_proofs.
Import ListNotations.
Local Open Scope R_scope.

(** ** Products *)
Section Conv.
Context {T : Type} {O : Ops T}.
(** Coefficient k of the product after the first [np] rows: the terms that exist, added in order. *)
Fixpoint cconv (p q : list T) (nq k np : nat) : T :=
  match np with
  | 0%nat => zero
  | S i => if (i <=? k)%nat && (k - i <? nq)%nat then add (cconv p q nq k i) (mul (coefn p i) (coefn q (k - i))) else cconv p q nq k i
  end.
Lemma pmul_conv (p q : list T) : p <> [] -> q <> [] ->
  exists s, pmul p q = Ret s /\ is_vec s (length p + length q - 1) (fun k => cconv p q (length q) k (length p)).
Proof.
  intros Hp Hq.
  assert (Lp : (0 < length p)%nat) by (destruct p; [congruence|cbn; lia]). assert (Lq : (0 < length q)%nat) by (destruct q; [congruence|cbn; lia]).
  unfold pmul, pdegree. rewrite !usub_ok by lia. cbn [bind].
  replace (length p - 1 + (length q - 1) + 1)%nat with (length p + length q - 1)%nat by lia. set (n := (length p + length q - 1)%nat).
  match goal with |- context [for_loop 0 (length p) ?body _] => set (bd := body) end.
  destruct (for_loop_ind (fun i s => is_vec s n (fun k => cconv p q (length q) k i)) bd 0%nat (length p) (repeat zero n)) as (s & E & Hs).
  - lia.
  - apply is_vec_repeat.
  - intros i s Hi Hs. unfold bd.
    match goal with |- context [for_loop 0 (length q) ?body _] => set (bd2 := body) end.
    destruct (for_loop_ind (fun j s => is_vec s n (fun k => if (i <=? k)%nat && (k - i <? j)%nat then add (cconv p q (length q) k i) (mul (coefn p i) (coefn q (k - i))) else cconv p q (length q) k i)) bd2 0%nat (length q) s) as (s' & E' & Hs').
    + lia.
    + eapply is_vec_ext; [|exact Hs]. intros k Hk. cbv beta. destruct (i <=? k)%nat; reflexivity.
    + intros j s1 Hj Hs1. unfold bd2.
      rewrite (is_vec_get _ _ _ i (is_vec_coefs p)), (is_vec_get _ _ _ j (is_vec_coefs q)), (is_vec_get _ _ _ (i + j)%nat Hs1) by (unfold n; lia). cbn [bind].
      match goal with |- exists s', vset s1 _ ?v = _ /\ _ => destruct (is_vec_set s1 n _ (i + j)%nat v Hs1) as (s2 & E2 & H2); [unfold n; lia|] end.
      exists s2. split; [exact E2|]. eapply is_vec_ext; [|exact H2]. intros k Hk. unfold upd1. cbv beta.
      destruct (Nat.eqb_spec k (i + j)).
      * subst k. replace (i + j - i)%nat with j by lia. replace (i <=? i + j)%nat with true by (symmetry; apply Nat.leb_le; lia).
        rewrite Nat.ltb_irrefl. replace (j <? S j)%nat with true by (symmetry; apply Nat.ltb_lt; lia). reflexivity.
      * destruct (Nat.leb_spec i k); [|reflexivity]. cbn [andb]. destruct (Nat.ltb_spec (k - i) j); destruct (Nat.ltb_spec (k - i) (S j)); try lia; reflexivity.
    + exists s'. split; [exact E'|]. exact Hs'.
  - rewrite E. cbn [bind]. exists s. split; [|exact Hs]. apply (pfrom_coef_len s (n - 1)). rewrite (is_vec_len _ _ _ Hs). unfold n. lia.
Qed.
End Conv.

Lemma coefn_valid (p : list f64) i : Forall fvalid p -> fvalid (coefn p i).
Proof. intros H. unfold coefn. destruct (Nat.lt_ge_cases i (length p)); [|rewrite nth_overflow by assumption; reflexivity]. rewrite Forall_forall in H. apply H, nth_In. assumption. Qed.
Lemma coefn_zero (p : list f64) i : (length p <= i)%nat -> fval (coefn p i) = 0.
Proof. intros H. unfold coefn. rewrite nth_overflow by assumption. reflexivity. Qed.
Lemma is_vec_valid (s : list f64) n g : is_vec s n g -> (forall i, (i < n)%nat -> fvalid (g i)) -> Forall fvalid s.
Proof.
  intros H V. apply Forall_forall. intros x Hx. destruct (In_nth s x zero Hx) as (i & Hi & <-). rewrite (is_vec_len _ _ _ H) in Hi.
  change (nth i s zero) with (coefn s i). rewrite (is_vec_coefn s n g i H Hi). now apply V.
Qed.

(** How many terms there are among the first [np]. *)
Definition cnt (nq k np : nat) : nat := (Nat.min np (k + 1) - (k + 1 - nq))%nat.

(** One more product added to a sum. *)
Lemma acc_step (s a b : f64) t A c : fvalid s -> fvalid a -> fvalid b -> ffin (add s (mul a b)) = true ->
  (ffin s = true -> Rabs (fval s - t) <= gam (S c) * A + INR c * eta64 * (1 + uro) ^ c) -> Rabs t <= A ->
  Rabs (fval (add s (mul a b)) - (t + fval a * fval b)) <= gam (S (S c)) * (A + Rabs (fval a * fval b)) + INR (S c) * eta64 * (1 + uro) ^ S c.
Proof.
  pose proof uro_pos as U. pose proof eta64_pos as H0. intros Vs Va Vb F I T.
  destruct (fadd_err _ _ Vs (fvalid_mul _ _ Va Vb) F) as (Fs & Fm & E1 & _). destruct (fmul_err _ _ Va Vb Fm) as (_ & _ & E2 & _). specialize (I Fs).
  set (r := fval (add s (mul a b))) in *. set (m := fval (mul a b)) in *. set (q := fval a * fval b) in *. set (v := fval s) in *.
  assert (K : Rabs (r - (t + q)) <= uro * Rabs (v + m) + Rabs (v - t) + Rabs (m - q)) by (unfold Rabs in *; repeat destruct Rcase_abs; lra).
  assert (L : Rabs (v + m) <= Rabs (v - t) + A + Rabs (m - q) + Rabs q) by (unfold Rabs in *; repeat destruct Rcase_abs; lra).
  assert (M : uro * Rabs (v + m) <= uro * (Rabs (v - t) + A + Rabs (m - q) + Rabs q)) by (apply Rmult_le_compat_l; lra).
  rewrite (gam_S (S c)), S_INR. pose proof (gam_pos (S c)) as G. pose proof (gam_mono 1 (S c) ltac:(lia)) as G1. unfold gam at 1 in G1. rewrite pow_1 in G1.
  assert (P2 : (1 + uro) ^ S c = (1 + uro) * (1 + uro) ^ c) by reflexivity. pose proof (gam_pow c) as W. rewrite P2. set (w := (1 + uro) ^ c) in *. set (g := gam (S c)) in *.
  pose proof (pos_INR c) as C0. set (n := INR c) in *. pose proof (Rabs_pos q) as Q0. assert (A0 : 0 <= A) by (pose proof (Rabs_pos t); lra).
  assert (B1 : (1 + uro) * Rabs (v - t) <= (1 + uro) * (g * A + n * eta64 * w)) by (apply Rmult_le_compat_l; lra).
  assert (B2 : (1 + uro) * Rabs (m - q) <= (1 + uro) * (uro * Rabs q + eta64)) by (apply Rmult_le_compat_l; lra).
  assert (B3 : uro * ((1 + uro) * Rabs q) <= g * ((1 + uro) * Rabs q)) by (apply Rmult_le_compat_r; [apply Rmult_le_pos; lra|lra]).
  assert (B4 : eta64 * (1 + uro) * 1 <= eta64 * (1 + uro) * w) by (apply Rmult_le_compat_l; [apply Rmult_le_pos; lra|lra]). lra.
Qed.

Lemma cconv_err (p q : list f64) k np : Forall fvalid p -> Forall fvalid q ->
  let nq := length q in let t := rsum np (fun i => if (i <=? k)%nat then fval (coefn p i) * fval (coefn q (k - i)) else 0) in
  let A := rsum np (fun i => if (i <=? k)%nat then Rabs (fval (coefn p i) * fval (coefn q (k - i))) else 0) in
  fvalid (cconv p q nq k np) /\ Rabs t <= A /\ (ffin (cconv p q nq k np) = true -> Rabs (fval (cconv p q nq k np) - t) <= gam (S (cnt nq k np)) * A + INR (cnt nq k np) * eta64 * (1 + uro) ^ cnt nq k np).
Proof.
  intros Vp Vq nq. pose proof uro_pos as U. pose proof eta64_pos as H0. induction np as [|np (IV & IT & IH)]; cbv zeta in *.
  - split; [reflexivity|]. simpl. rewrite Rabs_R0. split; [lra|]. intros _. change (fval zero) with 0. rewrite Rminus_0_r, Rabs_R0. pose proof (gam_pos (S (cnt nq k 0))).
    assert (0 <= INR (cnt nq k 0) * eta64 * (1 + uro) ^ cnt nq k 0) by (apply Rmult_le_pos; [apply Rmult_le_pos; [apply pos_INR|lra]|apply pow_le; lra]). lra.
  - rewrite !rsum_S. cbn [cconv]. set (t := rsum np _) in *. set (A := rsum np _) in IT, IH |- *.
    destruct (Nat.leb_spec np k) as [L|L]; cbn [andb].
    + destruct (Nat.ltb_spec (k - np) nq) as [L2|L2].
      * replace (cnt nq k (S np)) with (S (cnt nq k np)) by (unfold cnt; lia). split; [apply fvalid_add; [exact IV|apply fvalid_mul; now apply coefn_valid]|]. split; [eapply Rle_trans; [apply Rabs_triang|]; lra|].
        intros F. apply acc_step; try assumption; now apply coefn_valid.
      * replace (cnt nq k (S np)) with (cnt nq k np) by (unfold cnt; lia). rewrite (coefn_zero q) by exact L2. rewrite Rmult_0_r, Rabs_R0, !Rplus_0_r. split; [exact IV|]. split; [exact IT|exact IH].
    + replace (cnt nq k (S np)) with (cnt nq k np) by (unfold cnt; lia). rewrite !Rplus_0_r. split; [exact IV|]. split; [exact IT|exact IH].
Qed.

Lemma rsum_trunc m n f : (m <= n)%nat -> (forall i, (m <= i < n)%nat -> f i = 0) -> rsum n f = rsum m f.
Proof. intros H Z. induction n as [|n IH]; [now replace m with 0%nat by lia|]. destruct (Nat.eq_dec m (S n)) as [->|N]; [reflexivity|]. rewrite rsum_S, (Z n) by lia. rewrite Rplus_0_r. apply IH; [lia|]. intros; apply Z; lia. Qed.
Lemma rsum_ext n f g : (forall i, (i < n)%nat -> f i = g i) -> rsum n f = rsum n g.
Proof. intros H. induction n as [|n IH]; [reflexivity|]. rewrite !rsum_S, H by lia. rewrite IH; [reflexivity|]. intros; apply H; lia. Qed.
(** The terms beyond the stored coefficients are 0. *)
Lemma rsum_conv (h : nat -> R) n k : (forall i, (n <= i)%nat -> h i = 0) -> rsum n (fun i => if (i <=? k)%nat then h i else 0) = rsum (S k) h.
Proof.
  intros Z. transitivity (rsum (Nat.max n (S k)) (fun i => if (i <=? k)%nat then h i else 0)).
  - symmetry. apply rsum_trunc; [lia|]. intros i Hi. rewrite Z by lia. now destruct (i <=? k)%nat.
  - rewrite (rsum_trunc (S k)); [|lia|intros i Hi; destruct (Nat.leb_spec i k); [lia|reflexivity]]. apply rsum_ext. intros i Hi. destruct (Nat.leb_spec i k); [reflexivity|lia].
Qed.

Theorem pmul_f64 (p q : list f64) : p <> [] -> q <> [] -> Forall fvalid p -> Forall fvalid q ->
  exists s, pmul p q = Ret s /\ length s = (length p + length q - 1)%nat /\ Forall fvalid s /\
  forall k, (k < length s)%nat -> ffin (coefn s k) = true -> let c := Nat.min (length p) (length q) in
    Rabs (fval (coefn s k) - rsum (S k) (fun i => fval (coefn p i) * fval (coefn q (k - i)))) <=
      gam (S c) * rsum (S k) (fun i => Rabs (fval (coefn p i) * fval (coefn q (k - i)))) + INR c * eta64 * (1 + uro) ^ c.
Proof.
  intros Hp Hq Vp Vq. destruct (pmul_conv p q Hp Hq) as (s & E & Hs). exists s. split; [exact E|]. split; [exact (is_vec_len _ _ _ Hs)|].
  split. { apply (is_vec_valid _ _ _ Hs). intros k Hk. apply (cconv_err p q k (length p) Vp Vq). }
  intros k Hk F c. rewrite (is_vec_len _ _ _ Hs) in Hk. rewrite (is_vec_coefn _ _ _ k Hs Hk) in *. destruct (cconv_err p q k (length p) Vp Vq) as (_ & _ & B). specialize (B F). cbv zeta in B.
  rewrite (rsum_conv (fun i => fval (coefn p i) * fval (coefn q (k - i)))) in B by (intros i Hi; rewrite (coefn_zero p) by exact Hi; ring).
  rewrite (rsum_conv (fun i => Rabs (fval (coefn p i) * fval (coefn q (k - i))))) in B by (intros i Hi; rewrite (coefn_zero p) by exact Hi; rewrite Rmult_0_l; apply Rabs_R0).
  eapply Rle_trans; [exact B|]. assert (L : (cnt (length q) k (length p) <= c)%nat) by (unfold cnt, c; lia). pose proof uro_pos as U. pose proof eta64_pos as H0. apply Rplus_le_compat.
  - apply Rmult_le_compat_r; [apply rsum_pos; intros; apply Rabs_pos|]. apply gam_mono. lia.
  - apply Rmult_le_compat; [apply Rmult_le_pos; [apply pos_INR|lra]|apply pow_le; lra|apply Rmult_le_compat_r; [lra|now apply le_INR]|apply Rle_pow; [lra|exact L]].
Qed.

(** ** Sums *)
Theorem padd_f64 (p q : list f64) : p <> [] -> q <> [] -> Forall fvalid p -> Forall fvalid q ->
  exists s, padd p q = Ret s /\ length s = Nat.max (length p) (length q) /\
  forall k, (k < length s)%nat -> ffin (coefn s k) = true ->
    Rabs (fval (coefn s k) - (fval (coefn p k) + fval (coefn q k))) <= uro * Rabs (fval (coefn p k) + fval (coefn q k)).
Proof.
  intros Hp Hq Vp Vq. destruct (pzip_spec add p q (or_introl Hp)) as (s & E & Hl & Hs). exists s. split; [exact E|]. split; [exact Hl|]. intros k Hk F. rewrite (Hs k Hk) in *. pose proof uro_pos as U.
  destruct (Nat.ltb_spec k (Nat.min (length p) (length q))) as [L|L]; [now apply fadd_err; [apply coefn_valid|apply coefn_valid|]|].
  destruct (Nat.ltb_spec (length q) (length p)) as [L2|L2].
  - rewrite (coefn_zero q) by lia. rewrite Rplus_0_r, Rminus_eq_0, Rabs_R0. apply Rmult_le_pos; [lra|apply Rabs_pos].
  - rewrite (coefn_zero p) by lia. rewrite Rplus_0_l, Rminus_eq_0, Rabs_R0. apply Rmult_le_pos; [lra|apply Rabs_pos].
Qed.

(** ** From roots *)
Section Roots.
Context {T : Type} {O : Ops T}.
(** Coefficient t after i roots. *)
Fixpoint rco (r : list T) (i t : nat) {struct i} : T :=
  match i with
  | 0%nat => match t with 0%nat => one | S _ => zero end
  | S m => if (t =? S m)%nat then one else add (match t with 0%nat => zero | S t' => rco r m t' end) (mul (mul (neg one) (coefn r m)) (rco r m t))
  end.
Lemma rco_top r i : rco r i i = one.
Proof. destruct i; [reflexivity|]. cbn [rco]. now rewrite Nat.eqb_refl. Qed.
Lemma pfrom_root_rco (r : list T) : r <> [] -> exists s, pfrom_root r = Ret s /\ is_vec s (S (length r)) (rco r (length r)).
Proof.
  intros Hr. assert (Lr : (0 < length r)%nat) by (destruct r; [congruence|cbn; lia]).
  unfold pfrom_root, poly. cbv zeta. replace (length r =? 0)%nat with false by (symmetry; apply Nat.eqb_neq; lia). set (n := length r) in *.
  destruct (is_vec_set (repeat zero (n + 1)) (n + 1) _ n one (is_vec_repeat zero (n + 1))) as (c0 & E0 & H0); [lia|].
  rewrite E0. cbn [bind].
  match goal with |- context [for_loop 1 (n + 1) ?body _] => set (bd := body) end.
  destruct (for_loop_ind (fun i s => is_vec s (n + 1) (fun k => if (k <? n - (i - 1))%nat then zero else rco r (i - 1) (k - (n - (i - 1))))) bd 1%nat (n + 1)%nat c0) as (s & E & Hs).
  - lia.
  - eapply is_vec_ext; [|exact H0]. intros k Hk. unfold upd1. replace (1 - 1)%nat with 0%nat by lia. rewrite Nat.sub_0_r.
    destruct (Nat.eqb_spec k n) as [->|N]; [rewrite Nat.ltb_irrefl, Nat.sub_diag; reflexivity|]. replace (k <? n)%nat with true by (symmetry; apply Nat.ltb_lt; lia). reflexivity.
  - intros i s Hi Hs. unfold bd. rewrite usub_ok by lia. cbn [bind].
    match goal with |- context [for_loop (n - i) n ?body _] => set (bd2 := body) end.
    set (g := fun k => if (k <? n - (i - 1))%nat then zero else rco r (i - 1) (k - (n - (i - 1)))) in *. set (rr := coefn r (i - 1)).
    destruct (for_loop_ind (fun j s => is_vec s (n + 1) (fun k => if (n - i <=? k)%nat && (k <? j)%nat then add (g k) (mul (mul (neg one) rr) (g (k + 1)%nat)) else g k)) bd2 (n - i)%nat n s) as (s' & E' & Hs').
    + lia.
    + eapply is_vec_ext; [|exact Hs]. intros k Hk. destruct (Nat.leb_spec (n - i) k); destruct (Nat.ltb_spec k (n - i)); try lia; reflexivity.
    + intros j s1 Hj Hs1. unfold bd2. rewrite (is_vec_get _ _ _ (j + 1)%nat Hs1) by lia. cbn [bind]. rewrite usub_ok by lia. cbn [bind].
      rewrite (is_vec_get _ _ _ (i - 1)%nat (is_vec_coefs r)) by (fold n; lia). cbn [bind]. rewrite (is_vec_get _ _ _ j Hs1) by lia. cbn [bind].
      match goal with |- exists s', vset s1 _ ?v = _ /\ _ => destruct (is_vec_set s1 _ _ j v Hs1) as (s2 & E2 & H2); [lia|] end.
      exists s2. split; [exact E2|]. eapply is_vec_ext; [|exact H2]. intros k Hk. unfold upd1. cbv beta.
      replace (j <? j)%nat with false by (symmetry; apply Nat.ltb_irrefl). replace (j + 1 <? j)%nat with false by (symmetry; apply Nat.ltb_ge; lia).
      rewrite !andb_false_r. fold rr.
      destruct (Nat.eqb_spec k j).
      * subst k. replace (n - i <=? j)%nat with true by (symmetry; apply Nat.leb_le; lia). replace (j <? S j)%nat with true by (symmetry; apply Nat.ltb_lt; lia). reflexivity.
      * destruct (Nat.leb_spec (n - i) k); [|reflexivity]. cbn [andb]. destruct (Nat.ltb_spec k j); destruct (Nat.ltb_spec k (S j)); try lia; reflexivity.
    + exists s'. split; [exact E'|]. eapply is_vec_ext; [|exact Hs']. intros k Hk. cbv beta. replace (S i - 1)%nat with i by lia. destruct i as [|m]; [lia|].
      destruct (Nat.leb_spec (n - S m) k) as [L|L]; cbn [andb].
      * replace (k <? n - S m)%nat with false by (symmetry; apply Nat.ltb_ge; lia). cbn [rco]. destruct (Nat.ltb_spec k n) as [Ln|Ln].
        -- replace (k - (n - S m) =? S m)%nat with false by (symmetry; apply Nat.eqb_neq; lia). unfold g, rr. replace (S m - 1)%nat with m by lia. destruct (Nat.ltb_spec k (n - m)) as [L3|L3].
           ++ replace (k - (n - S m))%nat with 0%nat by lia. replace (k + 1 <? n - m)%nat with false by (symmetry; apply Nat.ltb_ge; lia). replace (k + 1 - (n - m))%nat with 0%nat by lia. reflexivity.
           ++ replace (k - (n - S m))%nat with (S (k - (n - m))) by lia. replace (k + 1 <? n - m)%nat with false by (symmetry; apply Nat.ltb_ge; lia). replace (k + 1 - (n - m))%nat with (S (k - (n - m))) by lia. reflexivity.
        -- assert (k = n) by lia. subst k. replace (n - (n - S m) =? S m)%nat with true by (symmetry; apply Nat.eqb_eq; lia). unfold g. replace (S m - 1)%nat with m by lia. replace (n <? n - m)%nat with false by (symmetry; apply Nat.ltb_ge; lia). replace (n - (n - m))%nat with m by lia. apply rco_top.
      * unfold g. replace (S m - 1)%nat with m by lia. replace (k <? n - S m)%nat with true by (symmetry; apply Nat.ltb_lt; lia). replace (k <? n - m)%nat with true by (symmetry; apply Nat.ltb_lt; lia). reflexivity.
  - rewrite E. cbn [bind]. exists s. split; [apply (pfrom_coef_len s n); rewrite (is_vec_len _ _ _ Hs); lia|]. replace (S n) with (n + 1)%nat by lia. eapply is_vec_ext; [|exact Hs]. intros k Hk. cbv beta.
    replace (n + 1 - 1)%nat with n by lia. rewrite Nat.sub_diag, Nat.sub_0_r. reflexivity.
Qed.
End Roots.

Lemma rc_out n f t : (n < t)%nat -> root_coef n f t = 0.
Proof. revert t. induction n as [|n IH]; intros t H; destruct t as [|t]; try lia; [reflexivity|]. cbn [root_coef]. rewrite !IH by lia. ring. Qed.
Lemma rc_top n f : root_coef n f n = 1.
Proof. induction n as [|n IH]; [reflexivity|]. cbn [root_coef]. rewrite IH, rc_out by lia. ring. Qed.
Lemma rc_pos n f t : (forall k, 0 <= f k) -> 0 <= root_coef n f t.
Proof.
  intros H. revert t. induction n as [|n IH]; intros t; [destruct t; simpl; lra|]. cbn [root_coef]. apply Rplus_le_le_0_compat; [destruct t; [lra|apply IH]|]. apply Rmult_le_pos; [apply H|apply IH].
Qed.
Lemma rc_abs n f t : Rabs (root_coef n f t) <= root_coef n (fun k => Rabs (f k)) t.
Proof.
  revert t. induction n as [|n IH]; intros t; [destruct t; simpl; rewrite ?Rabs_R1, ?Rabs_R0; lra|]. cbn [root_coef]. eapply Rle_trans; [apply Rabs_triang|]. apply Rplus_le_compat; [destruct t; [rewrite Rabs_R0; lra|apply IH]|].
  rewrite Rabs_mult. apply Rmult_le_compat_l; [apply Rabs_pos|apply IH].
Qed.
Lemma rc_one n f t : (forall k, 1 <= f k) -> (t <= n)%nat -> 1 <= root_coef n f t.
Proof.
  intros H. revert t. induction n as [|n IH]; intros t Ht; [replace t with 0%nat by lia; simpl; lra|]. destruct (Nat.eq_dec t (S n)) as [->|N]; [rewrite rc_top; lra|]. cbn [root_coef].
  assert (0 <= match t with 0%nat => 0 | S t' => root_coef n f t' end) by (destruct t; [lra|apply rc_pos; intro k; pose proof (H k); lra]).
  assert (1 * 1 <= f n * root_coef n f t) by (apply Rmult_le_compat; try lra; [apply H|apply IH; lia]). lra.
Qed.
Lemma rc_prod n f x : rsum (S n) (fun t => root_coef n f t * x ^ t) = root_prod n f x.
Proof.
  induction n as [|n IH]; [cbn; ring|]. cbn [root_prod]. rewrite <- IH.
  assert (K : forall m, rsum (S m) (fun t => root_coef (S n) f t * x ^ t) = x * rsum m (fun t => root_coef n f t * x ^ t) + f n * rsum (S m) (fun t => root_coef n f t * x ^ t)).
  { induction m as [|m IHm]; [cbn; ring|]. rewrite rsum_S, IHm, !rsum_S. cbn [root_coef pow]. ring. }
  rewrite K. rewrite (rsum_S (S n) (fun t => root_coef n f t * x ^ t)), (rc_out n f (S n)) by lia. ring.
Qed.
Lemma rc_ext n f g t : (forall k, (k < n)%nat -> f k = g k) -> root_coef n f t = root_coef n g t.
Proof. revert t. induction n as [|n IH]; intros t H; [reflexivity|]. cbn [root_coef]. rewrite (H n) by lia. rewrite (IH t) by (intros; apply H; lia). destruct t; [reflexivity|]. rewrite (IH t) by (intros; apply H; lia). reflexivity. Qed.

Lemma neg_one_val : fvalid (neg one : f64) /\ fval (neg one : f64) = -1.
Proof. split; [vm_compute; reflexivity|]. unfold fval, SF2R, F2R. simpl. lra. Qed.
Lemma neg_mul_val (r : f64) : fvalid r -> ffin (mul (neg one) r) = true -> fval (mul (neg one) r) = - fval r.
Proof.
  intros V F. destruct neg_one_val as (V1 & E1). destruct (fmul_fin _ _ V1 V F) as (_ & _ & E). rewrite E, E1. replace (-1 * fval r) with (- fval r) by ring.
  apply round_generic; [typeclasses eauto|]. apply generic_format_opp. now apply fmt_fval.
Qed.
Lemma root_step (s r y : f64) e1 a1 c1 e2 a2 c2 m : fvalid s -> fvalid r -> fvalid y -> ffin (add s (mul (mul (neg one) r) y)) = true ->
  let h := eta64 * (1 + uro) ^ (2 * m) in
  Rabs (fval s - e1) <= gam (2 * m) * a1 + h * c1 -> Rabs (fval y - e2) <= gam (2 * m) * a2 + h * c2 -> Rabs e1 <= a1 -> Rabs e2 <= a2 -> 0 <= c1 -> 1 <= c2 ->
  Rabs (fval (add s (mul (mul (neg one) r) y)) - (e1 + - fval r * e2)) <=
    gam (2 * S m) * (a1 + Rabs (fval r) * a2) + eta64 * (1 + uro) ^ (2 * S m) * (c1 + (1 + Rabs (fval r)) * c2).
Proof.
  pose proof uro_pos as U. pose proof eta64_pos as H0. destruct neg_one_val as (V1 & _). intros Vs Vr Vy F h I1 I2 A1 A2 C1 C2. assert (Vn : fvalid (mul (neg one) r)) by now apply fvalid_mul.
  destruct (fadd_err _ _ Vs (fvalid_mul _ _ Vn Vy) F) as (Fs & Fm & E1 & _). destruct (fmul_err _ _ Vn Vy Fm) as (Fn & Fy & E2 & _). rewrite (neg_mul_val r Vr Fn) in E2.
  set (v := fval (add _ _)) in *. set (p := fval (mul (mul (neg one) r) y)) in *. set (x := fval s) in *. set (z := fval y) in *. set (w := Rabs (fval r)). assert (w0 : 0 <= w) by apply Rabs_pos.
  assert (Z : Rabs (- fval r * z) <= w * Rabs (z - e2) + w * a2).
  { rewrite Rabs_mult, Rabs_Ropp. fold w. rewrite <- Rmult_plus_distr_l. apply Rmult_le_compat_l; [exact w0|]. replace z with ((z - e2) + e2) at 1 by ring. eapply Rle_trans; [apply Rabs_triang|]. lra. }
  assert (P : Rabs (p - - fval r * e2) <= (1 + uro) * (w * Rabs (z - e2)) + uro * (w * a2) + eta64).
  { replace (p - - fval r * e2) with ((p - - fval r * z) + - fval r * (z - e2)) by ring. eapply Rle_trans; [apply Rabs_triang|]. rewrite (Rabs_mult (- fval r) (z - e2)), Rabs_Ropp. fold w.
    assert (uro * Rabs (- fval r * z) <= uro * (w * Rabs (z - e2) + w * a2)) by (apply Rmult_le_compat_l; lra). lra. }
  set (q := - fval r * e2) in *. assert (Q : Rabs q <= w * a2) by (unfold q; rewrite Rabs_mult, Rabs_Ropp; apply Rmult_le_compat_l; [exact w0|exact A2]).
  assert (K : Rabs (v - (e1 + q)) <= uro * Rabs (x + p) + Rabs (x - e1) + Rabs (p - q)) by (unfold Rabs in *; repeat destruct Rcase_abs; lra).
  assert (L : Rabs (x + p) <= Rabs (x - e1) + a1 + Rabs (p - q) + w * a2) by (unfold Rabs in *; repeat destruct Rcase_abs; lra).
  assert (M : uro * Rabs (x + p) <= uro * (Rabs (x - e1) + a1 + Rabs (p - q) + w * a2)) by (apply Rmult_le_compat_l; lra).
  replace (2 * S m)%nat with (S (S (2 * m))) by lia. rewrite !gam_S. pose proof (gam_pos (2 * m)) as G. pose proof (gam_pow (2 * m)) as W.
  assert (P2 : (1 + uro) ^ S (S (2 * m)) = (1 + uro) * ((1 + uro) * (1 + uro) ^ (2 * m))) by reflexivity. rewrite P2. set (g := gam (2 * m)) in *. unfold h in *. set (ww := (1 + uro) ^ (2 * m)) in *.
  assert (B1 : (1 + uro) * Rabs (x - e1) <= (1 + uro) * (g * a1 + eta64 * ww * c1)) by (apply Rmult_le_compat_l; lra).
  assert (B2 : (1 + uro) * Rabs (p - q) <= (1 + uro) * ((1 + uro) * (w * (g * a2 + eta64 * ww * c2)) + uro * (w * a2) + eta64)).
  { apply Rmult_le_compat_l; [lra|]. eapply Rle_trans; [exact P|]. assert ((1 + uro) * (w * Rabs (z - e2)) <= (1 + uro) * (w * (g * a2 + eta64 * ww * c2))) by (apply Rmult_le_compat_l; [lra|]; apply Rmult_le_compat_l; lra). lra. }
  assert (a10 : 0 <= a1) by (pose proof (Rabs_pos e1); lra). assert (ga : 0 <= g * a1) by now apply Rmult_le_pos. assert (ga2 : 0 <= uro * (g * a1)) by (apply Rmult_le_pos; lra). assert (ga3 : 0 <= uro * (uro * (g * a1))) by (apply Rmult_le_pos; lra).
  assert (ua : 0 <= uro * a1) by (apply Rmult_le_pos; lra). assert (ua2 : 0 <= uro * (uro * a1)) by (apply Rmult_le_pos; lra).
  assert (ew : 0 < eta64 * ww) by (apply Rmult_lt_0_compat; lra). assert (ec : 0 <= eta64 * ww * c1) by (apply Rmult_le_pos; lra). assert (ec2 : 0 <= uro * (eta64 * ww * c1)) by (apply Rmult_le_pos; lra). assert (ec3 : 0 <= uro * (uro * (eta64 * ww * c1))) by (apply Rmult_le_pos; lra).
  assert (B4 : (1 + uro) * eta64 <= (1 + uro) * ((1 + uro) * (eta64 * ww * c2))).
  { apply Rmult_le_compat_l; [lra|]. assert (eta64 * 1 <= eta64 * ww) by (apply Rmult_le_compat_l; lra). assert (eta64 * ww * 1 <= eta64 * ww * c2) by (apply Rmult_le_compat_l; lra). assert (0 <= uro * (eta64 * ww * c2)) by (apply Rmult_le_pos; lra). lra. }
  lra.
Qed.

Lemma rco_valid (r : list f64) i : Forall fvalid r -> forall t, fvalid (rco r i t).
Proof.
  intros V. induction i as [|i IH]; intros t; [destruct t; reflexivity|]. cbn [rco]. destruct (t =? S i)%nat; [reflexivity|]. apply fvalid_add; [destruct t; [reflexivity|apply IH]|].
  apply fvalid_mul; [apply fvalid_mul; [apply neg_one_val|now apply coefn_valid]|apply IH].
Qed.
Lemma rco_err (r : list f64) i : Forall fvalid r -> (forall t, (t <= i)%nat -> ffin (rco r i t) = true) ->
  forall t, (t <= i)%nat -> Rabs (fval (rco r i t) - root_coef i (fun k => - fval (coefn r k)) t) <=
    gam (2 * i) * root_coef i (fun k => Rabs (fval (coefn r k))) t + eta64 * (1 + uro) ^ (2 * i) * root_coef i (fun k => 1 + Rabs (fval (coefn r k))) t.
Proof.
  intros V. pose proof uro_pos as U. pose proof eta64_pos as H0. destruct neg_one_val as (V1 & _).
  assert (PA : forall i t, 0 <= root_coef i (fun k => Rabs (fval (coefn r k))) t) by (intros; apply rc_pos; intro; apply Rabs_pos).
  assert (PC : forall i t, 0 <= root_coef i (fun k => 1 + Rabs (fval (coefn r k))) t) by (intros; apply rc_pos; intro k; pose proof (Rabs_pos (fval (coefn r k))); lra).
  assert (NN : forall i t, 0 <= gam (2 * i) * root_coef i (fun k => Rabs (fval (coefn r k))) t + eta64 * (1 + uro) ^ (2 * i) * root_coef i (fun k => 1 + Rabs (fval (coefn r k))) t).
  { intros i0 t0. apply Rplus_le_le_0_compat; apply Rmult_le_pos; auto; [apply gam_pos|]. apply Rmult_le_pos; [lra|apply pow_le; lra]. }
  assert (TOP : forall i, Rabs (fval (rco r i i) - root_coef i (fun k => - fval (coefn r k)) i) <= gam (2 * i) * root_coef i (fun k => Rabs (fval (coefn r k))) i + eta64 * (1 + uro) ^ (2 * i) * root_coef i (fun k => 1 + Rabs (fval (coefn r k))) i).
  { intros i0. rewrite rco_top, rc_top, fval_one, Rminus_eq_0, Rabs_R0. apply NN. }
  induction i as [|m IH]; intros F t Ht; [replace t with 0%nat by lia; exact (TOP 0%nat)|].
  assert (S1 : forall t, (t <= m)%nat -> ffin (add (match t with 0%nat => zero | S t' => rco r m t' end) (mul (mul (neg one) (coefn r m)) (rco r m t))) = true).
  { intros t0 H. specialize (F t0 ltac:(lia)). cbn [rco] in F. destruct (Nat.eqb_spec t0 (S m)); [lia|exact F]. }
  assert (Vr : fvalid (coefn r m)) by now apply coefn_valid.
  assert (Vs : forall t, fvalid (match t with 0%nat => zero | S t' => rco r m t' end : f64)) by (intros [|t0]; [reflexivity|now apply rco_valid]).
  assert (FP : forall t, (t <= m)%nat -> ffin (rco r m t) = true).
  { intros t0 H. pose proof (S1 t0 H) as F0. destruct (fadd_err _ _ (Vs t0) (fvalid_mul _ _ (fvalid_mul _ _ V1 Vr) (rco_valid r m V t0)) F0) as (_ & Fm & _).
    now destruct (fmul_err _ _ (fvalid_mul _ _ V1 Vr) (rco_valid r m V t0) Fm) as (_ & Fy & _). }
  specialize (IH FP). destruct (Nat.eq_dec t (S m)) as [->|N]; [apply TOP|]. assert (Hm : (t <= m)%nat) by lia.
  replace (rco r (S m) t) with (add (match t with 0%nat => zero | S t' => rco r m t' end) (mul (mul (neg one) (coefn r m)) (rco r m t))) by (cbn [rco]; destruct (Nat.eqb_spec t (S m)); [lia|reflexivity]).
  cbn [root_coef]. apply root_step; auto.
  - now apply rco_valid.
  - destruct t as [|t']; [|apply IH; lia]. change (fval (zero : f64)) with 0. rewrite Rminus_eq_0, Rabs_R0, !Rmult_0_r. lra.
  - destruct t; [rewrite Rabs_R0; lra|]. eapply Rle_trans; [apply rc_abs|]. right. apply rc_ext. intros. apply Rabs_Ropp.
  - eapply Rle_trans; [apply rc_abs|]. right. apply rc_ext. intros. apply Rabs_Ropp.
  - destruct t; [lra|apply PC].
  - apply rc_one; [|lia]. intro k. pose proof (Rabs_pos (fval (coefn r k))). lra.
Qed.
Theorem pfrom_root_f64 (r : list f64) : r <> [] -> Forall fvalid r ->
  exists s, pfrom_root r = Ret s /\ length s = S (length r) /\ Forall fvalid s /\ coefn s (length r) = one /\
  (Forall (fun x => ffin x = true) s -> forall t, (t < length s)%nat -> let n := length r in
    Rabs (fval (coefn s t) - root_coef n (fun k => - fval (coefn r k)) t) <=
      gam (2 * n) * root_coef n (fun k => Rabs (fval (coefn r k))) t + eta64 * (1 + uro) ^ (2 * n) * root_coef n (fun k => 1 + Rabs (fval (coefn r k))) t).
Proof.
  intros Hr V. destruct (pfrom_root_rco r Hr) as (s & E & Hs). exists s. pose proof (is_vec_len _ _ _ Hs) as L. split; [exact E|]. split; [exact L|]. split; [apply (is_vec_valid _ _ _ Hs); intros; now apply rco_valid|].
  split; [rewrite (is_vec_coefn _ _ _ _ Hs) by lia; apply rco_top|]. intros F t Ht n. rewrite L in Ht. rewrite (is_vec_coefn _ _ _ t Hs) by lia. apply rco_err; [exact V| |lia].
  intros t' H. unfold n in *. assert (Q : ffin (coefn s t') = true) by (rewrite Forall_forall in F; apply F; apply nth_In; lia). now rewrite (is_vec_coefn _ _ _ t' Hs) in Q by lia.
Qed.

(** ** Division *)
Lemma rsum_upd n (f g : nat -> R) i : (i < n)%nat -> (forall j, (j < n)%nat -> j <> i -> f j = g j) -> rsum n f = rsum n g + (f i - g i).
Proof.
  intros Hi H. induction n as [|n IH]; [lia|]. rewrite !rsum_S. destruct (Nat.eq_dec i n) as [->|N].
  - rewrite (rsum_ext n f g) by (intros; apply H; lia). ring.
  - rewrite IH by (try lia; intros; apply H; lia). rewrite (H n) by lia. ring.
Qed.
(** The leading coefficient after its elimination. *)
Lemma lead_err (x b : f64) : fvalid x -> fvalid b -> let c := div x b in ffin (sub x (mul b c)) = true ->
  Rabs (fval (sub x (mul b c))) <= 3 * uro * Rabs (fval b * fval c) + 2 * eta64 * (1 + Rabs (fval b)).
Proof.
  intros Vx Vb c F. pose proof uro_pos as U. pose proof eta64_pos as H0. assert (U1 : uro <= / 4) by (unfold uro; change (/ 4) with (bpow radix2 (-2)); apply bpow_le; lia).
  assert (Vc : fvalid c) by now apply fvalid_div. destruct (fsub_err _ _ Vx (fvalid_mul _ _ Vb Vc) F) as (Fx & Fm & E1 & _). destruct (fmul_err _ _ Vb Vc Fm) as (Fb & Fc & E2 & _).
  destruct (fdiv_err x b Vx Vb Fb Fc) as (_ & N & _ & E3). fold c in E3. set (v := fval (sub x (mul b c))) in *. set (m := fval (mul b c)) in *. set (B := fval b) in *. set (C := fval c) in *. set (X := fval x) in *.
  assert (D : Rabs (B * C - X) <= uro * Rabs (B * C) + eta64 * Rabs B).
  { replace (B * C - X) with (B * (C - X / B)) by (field; exact N). rewrite !Rabs_mult. apply Rle_trans with (Rabs B * (uro * Rabs C + eta64)); [apply Rmult_le_compat_l; [apply Rabs_pos|exact E3]|]. lra. }
  set (q := B * C) in *. assert (K : Rabs (X - m) <= 2 * (uro * Rabs q) + eta64 * (1 + Rabs B)) by (unfold Rabs in *; repeat destruct Rcase_abs; lra).
  assert (V : Rabs v <= Rabs (X - m) + uro * Rabs (X - m)) by (unfold Rabs in *; repeat destruct Rcase_abs; lra).
  assert (uro * Rabs (X - m) <= / 4 * Rabs (X - m)) by (apply Rmult_le_compat_r; [apply Rabs_pos|exact U1]).
  assert (0 <= uro * Rabs q) by (apply Rmult_le_pos; [lra|apply Rabs_pos]). assert (0 <= eta64 * (1 + Rabs B)) by (apply Rmult_le_pos; [lra|pose proof (Rabs_pos B); lra]). lra.
Qed.
(** The number of times position k has been updated when the quotient coefficients from i on are known. *)
Definition dcnt (n lq k i : nat) : nat := (Nat.min n (k + 1) - Nat.max i (k + 1 - lq))%nat.
Definition qterm (h : nat -> f64) (q : list f64) (k j : nat) : R := if (j <=? k)%nat then fval (h j) * fval (coefn q (k - j)) else 0.

Theorem pdiv_f64 eps (p q : list f64) : q <> [] -> (length q <= length p)%nat -> Forall fvalid p -> Forall fvalid q ->
  exists a b r, pdiv eps p q = Ret (a, b) /\ length a = (length p + 1 - length q)%nat /\ length r = length p /\ reduced eps r b /\ Forall fvalid a /\ Forall fvalid r /\
  forall k, (k < length p)%nat -> ffin (coefn r k) = true ->
    (let c := Nat.min (length a) (length q) in
     Rabs (fval (coefn p k) - (rsum (S k) (fun j => fval (coefn a j) * fval (coefn q (k - j))) + fval (coefn r k))) <=
       gam c * (Rabs (fval (coefn r k)) + rsum (S k) (fun j => Rabs (fval (coefn a j) * fval (coefn q (k - j))))) + INR c * eta64 * (1 + uro) ^ c) /\
    ((length q - 1 <= k)%nat -> let l := fval (coefn q (length q - 1)) in
     Rabs (fval (coefn r k)) <= 3 * uro * Rabs (l * fval (coefn a (k - (length q - 1)))) + 2 * eta64 * (1 + Rabs l)).
Proof.
  intros Hq Hl Vp Vq. pose proof uro_pos as U. pose proof eta64_pos as H0.
  assert (Lq : (0 < length q)%nat) by (destruct q; [congruence|cbn; lia]).
  unfold pdiv, pdegree, poly. rewrite !usub_ok by lia. cbn [bind]. destruct (Nat.ltb_spec (length p - 1) (length q - 1)) as [Hlt|Hge]; [lia|].
  set (dq := (length q - 1)%nat) in *. set (n := (length p - 1 - dq + 1)%nat).
  rewrite usub_ok by (unfold dq; lia). cbn [bind]. fold n.
  match goal with |- context [for_loop_rev 0 n ?body ?s] => set (bd := body); set (s0 := s) end.
  destruct (for_loop_rev_ind (fun i (st : list f64 * list f64) => exists h g, is_vec (fst st) n h /\ is_vec (snd st) (length p) g /\
     (forall j, fvalid (h j)) /\ (forall k, fvalid (g k)) /\ (forall j, (j < i)%nat -> h j = zero) /\
     (forall k, (dq + i <= k < length p)%nat -> ffin (g k) = true -> Rabs (fval (g k)) <= 3 * uro * Rabs (fval (coefn q dq) * fval (h (k - dq)%nat)) + 2 * eta64 * (1 + Rabs (fval (coefn q dq)))) /\
     forall k, (k < length p)%nat -> ffin (g k) = true -> let c := dcnt n (length q) k i in
       Rabs (fval (coefn p k) - rsum n (qterm h q k) - fval (g k)) <= gam c * (Rabs (fval (g k)) + rsum n (fun j => Rabs (qterm h q k j))) + INR c * eta64 * (1 + uro) ^ c) bd 0%nat n s0)
    as ((quo & rem) & E & h & g & Hh & Hg & Vh & Vg & _ & Hz & Hc).
  - lia.
  - exists (fun _ => zero), (coefn p). unfold s0. cbn [fst snd]. split; [apply is_vec_repeat|]. split; [apply is_vec_coefs|]. split; [reflexivity|]. split; [intros; now apply coefn_valid|].
    split; [reflexivity|]. split; [intros k Hk; unfold n, dq in Hk; lia|]. intros k Hk F. cbv zeta.
    assert (Z : forall j, qterm (fun _ => zero) q k j = 0) by (intro j; unfold qterm; destruct (j <=? k)%nat; [change (fval zero) with 0; ring|reflexivity]).
    rewrite (rsum_trunc 0 n) by (try lia; intros; apply Z). change (rsum 0 _) with 0. replace (fval (coefn p k) - 0 - fval (coefn p k)) with 0 by ring. rewrite Rabs_R0.
    apply Rplus_le_le_0_compat; apply Rmult_le_pos; [apply gam_pos|apply Rplus_le_le_0_compat; [apply Rabs_pos|apply rsum_pos; intros; apply Rabs_pos]|apply Rmult_le_pos; [apply pos_INR|lra]|apply pow_le; lra].
  - intros i [quo rem] Hi (h & g & Hh & Hg & Vh & Vg & Hz & Hgz & Hc). cbn [fst snd] in *. unfold bd. cbn [fst snd].
    rewrite (is_vec_get _ _ _ (dq + i)%nat Hg) by (unfold n, dq in *; lia). cbn [bind].
    rewrite (is_vec_get _ _ _ dq (is_vec_coefs q)) by (unfold dq; lia). cbn [bind]. set (c := div (g (dq + i)%nat) (coefn q dq)).
    destruct (is_vec_set quo n h i c Hh) as (quo' & Eq & Hq'); [lia|]. rewrite Eq. cbn [bind].
    match goal with |- context [for_loop 0 (length q) ?body _] => set (bd2 := body) end.
    destruct (for_loop_ind (fun k s => is_vec s (length p) (fun m => if (i <=? m)%nat && (m - i <? k)%nat then sub (g m) (mul (coefn q (m - i)) c) else g m)) bd2 0%nat (length q) rem) as (rem' & Er & Hr').
    + lia.
    + eapply is_vec_ext; [|exact Hg]. intros m Hm. cbv beta. destruct (i <=? m)%nat; reflexivity.
    + intros k s Hk Hs. unfold bd2. rewrite (is_vec_get _ _ _ k (is_vec_coefs q)), (is_vec_get _ _ _ (k + i)%nat Hs) by (unfold n, dq in *; lia). cbn [bind].
      match goal with |- exists s', vset s _ ?v = _ /\ _ => destruct (is_vec_set s _ _ (k + i)%nat v Hs) as (s2 & E2 & H2); [unfold n, dq in *; lia|] end.
      exists s2. split; [exact E2|]. eapply is_vec_ext; [|exact H2]. intros m Hm. unfold upd1. cbv beta.
      replace (k + i - i)%nat with k by lia. rewrite (Nat.ltb_irrefl k), andb_false_r.
      destruct (Nat.eqb_spec m (k + i)).
      * subst m. replace (k + i - i)%nat with k by lia. replace (i <=? k + i)%nat with true by (symmetry; apply Nat.leb_le; lia).
        replace (k <? S k)%nat with true by (symmetry; apply Nat.ltb_lt; lia). reflexivity.
      * destruct (Nat.leb_spec i m); [|reflexivity]. cbn [andb]. destruct (Nat.ltb_spec (m - i) k); destruct (Nat.ltb_spec (m - i) (S k)); try lia; reflexivity.
    + rewrite Er. cbn [bind]. eexists. split; [reflexivity|]. cbn [fst snd]. exists (upd1 h i c), (fun m => if (i <=? m)%nat && (m - i <? length q)%nat then sub (g m) (mul (coefn q (m - i)) c) else g m).
      assert (Vc : fvalid c) by (apply fvalid_div; [apply Vg|now apply coefn_valid]).
      split; [exact Hq'|]. split; [exact Hr'|]. split; [intro j; unfold upd1; destruct (j =? i)%nat; [exact Vc|apply Vh]|].
      split; [intro k; destruct (_ && _); [apply fvalid_sub; [apply Vg|apply fvalid_mul; [now apply coefn_valid|exact Vc]]|apply Vg]|]. split; [|split].
      * intros j Hj. unfold upd1. destruct (Nat.eqb_spec j i); [lia|]. apply Hz. lia.
      * intros k Hk. replace (i <=? k)%nat with true by (symmetry; apply Nat.leb_le; lia). cbn [andb].
        destruct (Nat.ltb_spec (k - i) (length q)) as [L|L].
        -- assert (k = dq + i)%nat by (unfold dq in *; lia). subst k. replace (dq + i - i)%nat with dq by lia. replace (dq + i - dq)%nat with i by lia. unfold upd1. rewrite Nat.eqb_refl. apply lead_err; [apply Vg|now apply coefn_valid].
        -- intros F. unfold upd1. destruct (Nat.eqb_spec (k - dq) i); [unfold dq in *; lia|]. apply Hgz; [unfold dq in *; lia|exact F].
      * intros k Hk F. cbv zeta. assert (T1 : forall j, (j < n)%nat -> j <> i -> qterm (upd1 h i c) q k j = qterm h q k j) by (intros j _ N; unfold qterm, upd1; destruct (Nat.eqb_spec j i); [congruence|reflexivity]).
        pose proof (rsum_upd n (qterm (upd1 h i c) q k) (qterm h q k) i ltac:(lia) T1) as S1.
        pose proof (rsum_upd n (fun j => Rabs (qterm (upd1 h i c) q k j)) (fun j => Rabs (qterm h q k j)) i ltac:(lia) ltac:(intros j A B; cbv beta; now rewrite T1)) as S2. cbv beta in S2.
        assert (Z : qterm h q k i = 0).
        { unfold qterm. destruct (i <=? k)%nat; [|reflexivity]. rewrite (Hz i) by lia. change (fval zero) with 0. ring. }
        rewrite S1, S2, Z, Rabs_R0, !Rminus_0_r. unfold qterm at 2 4. unfold upd1. rewrite Nat.eqb_refl.
        destruct (Nat.leb_spec i k) as [L|L]; cbn [andb] in F |- *.
        -- destruct (Nat.ltb_spec (k - i) (length q)) as [L2|L2].
           ++ replace (dcnt n (length q) k i) with (1 + dcnt n (length q) k (S i))%nat by (unfold dcnt; lia).
              destruct (elim_err (g k) (coefn q (k - i)) c (Vg k) (coefn_valid q (k - i) Vq) Vc F) as (Fg & _ & _ & B).
              pose proof (Hc k Hk Fg) as I. cbv zeta in I. rewrite (Rmult_comm (fval c)).
              replace (fval (coefn p k) - (rsum n (qterm h q k) + fval (coefn q (k - i)) * fval c) - fval (sub (g k) (mul (coefn q (k - i)) c)))
                with (fval (coefn p k) - rsum n (qterm h q k) - fval (sub (g k) (mul (coefn q (k - i)) c)) - fval (coefn q (k - i)) * fval c) by ring.
              apply B; [exact I|apply rsum_pos; intros; apply Rabs_pos].
           ++ replace (dcnt n (length q) k i) with (dcnt n (length q) k (S i)) by (unfold dcnt; lia). rewrite (coefn_zero q) by exact L2. rewrite Rmult_0_r, Rabs_R0, !Rplus_0_r. exact (Hc k Hk F).
        -- replace (dcnt n (length q) k i) with (dcnt n (length q) k (S i)) by (unfold dcnt; lia). rewrite Rabs_R0, !Rplus_0_r. exact (Hc k Hk F).
  - rewrite E. cbn [bind fst snd].
    rewrite (pfrom_coef_len quo (n - 1)) by (cbn [fst] in Hh; rewrite (is_vec_len _ _ _ Hh); unfold n; lia). cbn [bind].
    cbn [fst snd] in *. assert (Hne : rem <> []). { intro; subst rem. apply is_vec_len in Hg. cbn in Hg. lia. }
    destruct (reduce_coef_ok eps rem Hne) as (r & Er & Ef & Hr). rewrite Er. cbn [bind]. rewrite Ef. cbn [bind].
    exists quo, r, rem. split; [reflexivity|]. assert (Hlen := is_vec_len _ _ _ Hh). assert (Hlr := is_vec_len _ _ _ Hg).
    split; [rewrite Hlen; unfold n, dq; lia|]. split; [exact Hlr|]. split; [exact Hr|]. split; [apply (is_vec_valid _ _ _ Hh); auto|]. split; [apply (is_vec_valid _ _ _ Hg); auto|].
    intros k Hk F. rewrite (is_vec_coefn _ _ _ k Hg Hk) in *. split.
    + cbv zeta. set (c := Nat.min (length quo) (length q)). pose proof (Hc k Hk F) as I. cbv zeta in I.
      assert (QT : forall j, (j < n)%nat -> qterm h q k j = if (j <=? k)%nat then fval (coefn quo j) * fval (coefn q (k - j)) else 0) by (intros j Hj; unfold qterm; now rewrite (is_vec_coefn _ _ _ j Hh Hj)).
      rewrite (rsum_ext n _ _ QT) in I. rewrite (rsum_ext n (fun j => Rabs (qterm h q k j)) (fun j => if (j <=? k)%nat then Rabs (fval (coefn quo j) * fval (coefn q (k - j))) else 0)) in I
        by (intros j Hj; rewrite (QT j Hj); destruct (j <=? k)%nat; [reflexivity|apply Rabs_R0]).
      rewrite (rsum_conv (fun j => fval (coefn quo j) * fval (coefn q (k - j)))) in I by (intros j Hj; rewrite (coefn_zero quo) by lia; ring).
      rewrite (rsum_conv (fun j => Rabs (fval (coefn quo j) * fval (coefn q (k - j))))) in I by (intros j Hj; rewrite (coefn_zero quo) by lia; rewrite Rmult_0_l; apply Rabs_R0).
      set (t := rsum (S k) _) in I |- *. set (A := rsum (S k) _) in I |- *. assert (A0 : 0 <= A) by (apply rsum_pos; intros; apply Rabs_pos).
      replace (fval (coefn p k) - (t + fval (g k))) with (fval (coefn p k) - t - fval (g k)) by ring. eapply Rle_trans; [exact I|].
      assert (L : (dcnt n (length q) k 0 <= c)%nat) by (unfold dcnt, c; lia). apply Rplus_le_compat.
      * apply Rmult_le_compat_r; [pose proof (Rabs_pos (fval (g k))); lra|now apply gam_mono].
      * apply Rmult_le_compat; [apply Rmult_le_pos; [apply pos_INR|lra]|apply pow_le; lra|apply Rmult_le_compat_r; [lra|now apply le_INR]|apply Rle_pow; [lra|exact L]].
    + intros Hd. rewrite (is_vec_coefn _ _ _ (k - dq)%nat Hh) by (unfold n, dq in *; lia). apply Hz; [lia|exact F].
Qed.

(** ** Differentiation and integration *)
Lemma of_nat_f64 n : (Z.of_nat n <= 2 ^ 53)%Z -> fvalid (of_nat n : f64) /\ ffin (of_nat n : f64) = true /\ fval (of_nat n : f64) = INR n.
Proof. intros H. destruct (int_as_f64_ok (Z.of_nat n)) as (A & B & C); [rewrite Z.abs_eq by lia; exact H|]. split; [exact A|]. split; [exact B|]. rewrite INR_IZR_INZ. exact C. Qed.
Theorem pdiff_f64 eps (p : list f64) : p <> [] -> Forall fvalid p -> (Z.of_nat (length p) <= 2 ^ 53)%Z ->
  exists s, pdiff eps p = Ret s /\
  ((length p = 1%nat /\ s = [zero]) \/
   exists r, reduced eps r s /\ length r = (length p - 1)%nat /\
     forall k, (k < length r)%nat -> ffin (coefn r k) = true ->
       Rabs (fval (coefn r k) - INR (S k) * fval (coefn p (S k))) <= uro * Rabs (INR (S k) * fval (coefn p (S k))) + eta64).
Proof.
  intros Hp V L. destruct (pdiff_red eps p Hp) as (s & E & _ & [H|(H1 & H2)]); exists s; (split; [exact E|]); [now left|right].
  exists (dlist p). split; [exact H2|]. split; [apply dlist_len|]. intros k Hk. rewrite dlist_len in Hk.
  assert (Ec : coefn (dlist p) k = mul (of_nat (S k)) (coefn p (S k))) by (unfold dlist; unfold coefn at 1; rewrite nth_map_seq_from by exact Hk; reflexivity). rewrite Ec. intros F.
  destruct (of_nat_f64 (S k)) as (A & _ & C); [lia|]. destruct (fmul_err _ _ A (coefn_valid p (S k) V) F) as (_ & _ & B & _). rewrite C in B. exact B.
Qed.
Theorem pinteg_f64 eps (p : list f64) : Forall fvalid p -> (Z.of_nat (length p) <= 2 ^ 53)%Z ->
  exists s r, pinteg eps p = Ret s /\ reduced eps r s /\ length r = S (length p) /\ coefn r 0 = zero /\
     forall k, (k < length p)%nat -> ffin (coefn r (S k)) = true ->
       Rabs (fval (coefn r (S k)) - fval (coefn p k) / INR (S k)) <= uro * Rabs (fval (coefn p k) / INR (S k)) + eta64.
Proof.
  intros V L. destruct (pinteg_red eps p) as (s & E & _ & H2). exists s, (ilist p). split; [exact E|]. split; [exact H2|]. split; [apply ilist_len|]. split; [reflexivity|]. intros k Hk.
  assert (Ec : coefn (ilist p) (S k) = div (coefn p k) (of_nat (S k))) by (unfold ilist; unfold coefn at 1; cbn [nth]; rewrite nth_map_seq_from by exact Hk; cbn [Nat.add]; replace (k + 1)%nat with (S k) by lia; reflexivity). rewrite Ec. intros F.
  destruct (of_nat_f64 (S k)) as (A & Fn & C); [lia|]. destruct (fdiv_err _ _ (coefn_valid p k V) A Fn F) as (_ & _ & B & _). now rewrite C in B.
Qed.
(** Subtraction: on the positions that both operands have. *)
Theorem psub_f64 (p q : list f64) : p <> [] -> q <> [] -> Forall fvalid p -> Forall fvalid q ->
  exists s, psub p q = Ret s /\ length s = Nat.max (length p) (length q) /\
  forall k, (k < Nat.min (length p) (length q))%nat -> ffin (coefn s k) = true ->
    Rabs (fval (coefn s k) - (fval (coefn p k) - fval (coefn q k))) <= uro * Rabs (fval (coefn p k) - fval (coefn q k)).
Proof.
  intros Hp Hq Vp Vq. destruct (pzip_spec sub p q (or_introl Hp)) as (s & E & Hl & Hs). exists s. split; [exact E|]. split; [exact Hl|]. intros k Hk F. assert (K : (k < length s)%nat) by lia. rewrite (Hs k K) in *.
  replace (k <? Nat.min (length p) (length q))%nat with true in * by (symmetry; apply Nat.ltb_lt; exact Hk). destruct (fsub_err _ _ (coefn_valid p k Vp) (coefn_valid q k Vq) F) as (_ & _ & B & _). exact B.
Qed.
