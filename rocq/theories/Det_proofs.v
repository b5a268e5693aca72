(** Proofs about the determinant. *)
From Coq Require Import Arith List Bool Lia Ring.
From Verif Require Import Outcome Scalar Matrix_model Transpose_model Vector_model LU_model Matrix_spec LU_spec
  Det_spec Matrix_proofs Transpose_proofs Vector_proofs Sums LU_proofs Subst_proofs.
Import ListNotations.
Local Open Scope nat_scope.

Section D.
Context {T : Type} {O : Ops T} (L : RingLaws O).
Add Ring TrD : (rl_ring O L).

Lemma swap_of_alt n (D : (nat -> nat -> T) -> T) r s :
  (forall f g, (forall i j, i < n -> j < n -> f i j = g i j) -> D f = D g) ->
  (forall f r u v, r < n ->
    D (rowset r (fun j => add (u j) (v j)) f) = add (D (rowset r u f)) (D (rowset r v f))) ->
  (forall f, (forall j, j < n -> f r j = f s j) -> D f = zero) ->
  r < n -> s < n -> r <> s -> forall f, D (swapf r s f) = neg (D f).
Proof.
  intros Hext Hadd Halt Hr Hs Hne f.
  set (w := fun j => add (f r j) (f s j)).
  assert (E0 : D (rowset r w (rowset s w f)) = zero).
  { apply Halt. intros j Hj. unfold rowset.
    destruct (Nat.eqb_spec s r); [congruence|]. rewrite !Nat.eqb_refl. reflexivity. }
  unfold w in E0 at 1. rewrite Hadd in E0 by assumption.
  assert (Ex : forall u, D (rowset r u (rowset s w f)) =
     add (D (rowset s (f r) (rowset r u f))) (D (rowset s (f s) (rowset r u f)))).
  { intros u. unfold w. rewrite <- Hadd by assumption. apply Hext.
    intros i j Hi Hj. unfold rowset. destruct (Nat.eqb_spec i r); destruct (Nat.eqb_spec i s); try reflexivity; try congruence. }
  rewrite !Ex in E0.
  rewrite (Halt (rowset s (f r) (rowset r (f r) f))) in E0.
  2:{ intros j Hj. unfold rowset. destruct (Nat.eqb_spec r s); [congruence|]. rewrite !Nat.eqb_refl. reflexivity. }
  rewrite (Halt (rowset s (f s) (rowset r (f s) f))) in E0.
  2:{ intros j Hj. unfold rowset. destruct (Nat.eqb_spec r s); [congruence|]. rewrite !Nat.eqb_refl. reflexivity. }
  assert (E1 : D (rowset s (f s) (rowset r (f r) f)) = D f).
  { apply Hext. intros i j Hi Hj. unfold rowset.
    destruct (Nat.eqb_spec i s); destruct (Nat.eqb_spec i r); subst; reflexivity. }
  assert (E2 : D (rowset s (f r) (rowset r (f s) f)) = D (swapf r s f)).
  { apply Hext. intros i j Hi Hj. unfold rowset, swapf.
    destruct (Nat.eqb_spec i s); destruct (Nat.eqb_spec i r); subst; try reflexivity; try congruence. }
  rewrite E1, E2 in E0.
  transitivity (sub (add (add zero (D f)) (add (D (swapf r s f)) zero)) (D f)); [ring|].
  rewrite E0. ring.
Qed.

Section Fix.
Context (n : nat) (D : (nat -> nat -> T) -> T) (HD : is_det O n D).

Lemma rowset_same r (f : nat -> nat -> T) i j : rowset r (f r) f i j = f i j.
Proof. unfold rowset. destruct (Nat.eqb_spec i r); subst; reflexivity. Qed.

Lemma det_rowset_id r f : D (rowset r (f r) f) = D f.
Proof. apply (det_ext O n D HD). intros. apply rowset_same. Qed.

Lemma det_zero_row r f : r < n -> (forall j, j < n -> f r j = zero) -> D f = zero.
Proof.
  intros Hr H. rewrite <- (det_rowset_id r f).
  rewrite (det_ext O n D HD _ (rowset r (fun j => mul zero (f r j)) f)).
  - rewrite (det_scale O n D HD) by assumption. ring.
  - intros i j Hi Hj. unfold rowset. destruct (Nat.eqb_spec i r); [|reflexivity]. rewrite H by assumption. ring.
Qed.

Lemma det_swap r s f : r < n -> s < n -> r <> s -> D (swapf r s f) = neg (D f).
Proof.
  intros Hr Hs Hne. apply (swap_of_alt n D r s); auto.
  - apply (det_ext O n D HD).
  - apply (det_add O n D HD).
  - intros g Hg. apply (det_alt O n D HD g r s); auto.
Qed.

(** Adding a multiple of another row. *)
Lemma det_add_row r s c f : r < n -> s < n -> r <> s ->
  D (rowset r (fun j => add (f r j) (mul c (f s j))) f) = D f.
Proof.
  intros Hr Hs Hne. rewrite (det_add O n D HD) by assumption. rewrite (det_scale O n D HD) by assumption.
  rewrite (det_alt O n D HD (rowset r (f s) f) r s); auto.
  - rewrite det_rowset_id. ring.
  - intros j Hj. unfold rowset. rewrite Nat.eqb_refl. destruct (Nat.eqb_spec s r); [congruence|reflexivity].
Qed.

Lemma det_add_comb r (c : nat -> T) f k : r < n -> k <= n -> c r = zero ->
  D (rowset r (fun j => add (f r j) (sumn k (fun l => mul (c l) (f l j)))) f) = D f.
Proof.
  intros Hr Hk Hc. induction k as [|k IH].
  - apply (det_ext O n D HD). intros i j Hi Hj. unfold rowset. simpl.
    destruct (Nat.eqb_spec i r); [subst; ring|reflexivity].
  - rewrite <- IH by lia. destruct (Nat.eq_dec k r) as [->|Hne].
    + apply (det_ext O n D HD). intros i j Hi Hj. unfold rowset. destruct (i =? r); [|reflexivity].
      cbn [sumn]. rewrite Hc. ring.
    + set (g := rowset r (fun j => add (f r j) (sumn k (fun l => mul (c l) (f l j)))) f).
      rewrite <- (det_add_row r k (c k) g) by (auto; lia).
      apply (det_ext O n D HD). intros i j Hi Hj. unfold g, rowset. rewrite Nat.eqb_refl.
      destruct (Nat.eqb_spec i r); [|reflexivity]. destruct (Nat.eqb_spec k r); [congruence|]. cbn [sumn]. ring.
Qed.

(** Upper triangular matrices. *)
Lemma det_upper_aux (u : nat -> nat -> T) k : k <= n -> upper n n u ->
  D u = mul (prodn k (fun i => u (n - S i) (n - S i)))
            (D (fun i j => if n - k <=? i then delta i j else u i j)).
Proof.
  intros Hk Hu. induction k as [|k IH].
  - cbn [prodn]. rewrite (det_ext O n D HD (fun i j => if n - 0 <=? i then delta i j else u i j) u).
    + ring.
    + intros i j Hi Hj. bcase.
  - rewrite IH by lia. cbn [prodn]. set (r := n - S k).
    transitivity (mul (prodn k (fun i => u (n - S i) (n - S i)))
       (mul (u r r) (D (fun i j => if r <=? i then delta i j else u i j)))); [|ring].
    f_equal.
    set (g := fun i j => if r <=? i then delta i j else u i j).
    rewrite <- (det_rowset_id r g), <- (det_scale O n D HD) by lia.
    set (h := rowset r (fun j => mul (u r r) (g r j)) g).
    assert (Hr : r < n) by lia.
    rewrite <- (det_add_comb r (fun l => if r <? l then u r l else zero) h n Hr (le_n n)).
    2:{ cbv beta. rewrite Nat.ltb_irrefl. reflexivity. }
    apply (det_ext O n D HD). intros i j Hi Hj. unfold rowset.
    destruct (Nat.eqb_spec i r) as [->|Hne].
    + replace (n - k <=? r) with false by (symmetry; apply Nat.leb_gt; lia).
      rewrite (sumn_ext n _ (fun l => mul (if r <? l then u r l else zero) (delta l j))).
      2:{ intros l Hl. unfold h, rowset, g. destruct (Nat.ltb_spec r l); [|ring].
          destruct (Nat.eqb_spec l r); [lia|]. replace (r <=? l) with true by (symmetry; apply Nat.leb_le; lia). reflexivity. }
      rewrite (sumn_delta_r L n j (fun l => if r <? l then u r l else zero)) by assumption.
      unfold h, rowset, g. rewrite Nat.eqb_refl, Nat.leb_refl. unfold delta.
      destruct (Nat.eqb_spec r j) as [<-|].
      * rewrite Nat.ltb_irrefl. ring.
      * destruct (Nat.ltb_spec r j); [ring|]. rewrite (Hu r j) by lia. ring.
    + unfold h, rowset, g. destruct (Nat.eqb_spec i r); [congruence|].
      destruct (Nat.leb_spec (n - k) i); destruct (Nat.leb_spec r i); try reflexivity; lia.
Qed.

Lemma prodn_ext m (f g : nat -> T) : (forall i, i < m -> f i = g i) -> prodn m f = prodn m g.
Proof. induction m; intros H; simpl; [reflexivity|]. rewrite IHm by auto. rewrite H by auto. reflexivity. Qed.
Lemma prodn_first m (f : nat -> T) : prodn (S m) f = mul (f 0) (prodn m (fun i => f (S i))).
Proof. induction m; [simpl; ring|]. cbn [prodn] in *. rewrite IHm. ring. Qed.
Lemma prodn_rev m (f : nat -> T) : prodn m (fun i => f (m - S i)) = prodn m f.
Proof.
  induction m; [reflexivity|]. rewrite prodn_first. cbn [prodn]. replace (S m - 1) with m by lia.
  rewrite <- IHm. rewrite (Ring_theory.Rmul_comm (rl_ring O L)). reflexivity.
Qed.

Lemma det_upper (u : nat -> nat -> T) : upper n n u -> D u = prodn n (fun i => u i i).
Proof.
  intros Hu. rewrite (det_upper_aux u n (le_n n) Hu).
  rewrite (prodn_rev n (fun i => u i i)).
  rewrite (det_ext O n D HD _ delta).
  - rewrite (det_one O n D HD). ring.
  - intros i j Hi Hj. rewrite Nat.sub_diag. reflexivity.
Qed.

(** Multiplication by a unit lower triangular matrix from the left. *)
Lemma det_unit_lower_aux l (u : nat -> nat -> T) k : k <= n -> unit_lower n l ->
  D (mulf n l u) = D (fun i j => if i <? k then u i j else mulf n l u i j).
Proof.
  intros Hk Hl. induction k as [|k IH].
  - reflexivity.
  - rewrite IH by lia. set (g := fun i j => if i <? S k then u i j else mulf n l u i j).
    rewrite <- (det_add_comb k (fun c => if c <? k then l k c else zero) g n) ; [|lia|lia|].
    2:{ rewrite Nat.ltb_irrefl. reflexivity. }
    apply (det_ext O n D HD). intros i j Hi Hj. unfold rowset.
    destruct (Nat.eqb_spec i k) as [->|Hne].
    + rewrite Nat.ltb_irrefl. unfold g. replace (k <? S k) with true by (symmetry; apply Nat.ltb_lt; lia).
      unfold mulf.
      rewrite (sumn_ext n _ (fun c => add (if c =? k then u c j else zero) (mul (if c <? k then l k c else zero) (u c j)))).
      * rewrite (sumn_add L). rewrite (sumn_single L n k).
        -- rewrite Nat.eqb_refl. f_equal. apply sumn_ext. intros c Hc.
           destruct (Nat.ltb_spec c k); [|ring]. replace (c <? S k) with true by (symmetry; apply Nat.ltb_lt; lia). reflexivity.
        -- lia.
        -- intros c Hc Hne. apply Nat.eqb_neq in Hne. rewrite Hne. reflexivity.
      * intros c Hc. destruct (Hl k c ltac:(lia) Hc) as [H1 H2].
        destruct (Nat.eqb_spec c k) as [->|Hne].
        -- rewrite Nat.ltb_irrefl. rewrite H1 by reflexivity. ring.
        -- destruct (Nat.ltb_spec c k); [ring|]. rewrite H2 by lia. ring.
    + unfold g. destruct (Nat.ltb_spec i k); destruct (Nat.ltb_spec i (S k)); try reflexivity; lia.
Qed.

Lemma det_unit_lower l (u : nat -> nat -> T) : unit_lower n l -> D (mulf n l u) = D u.
Proof.
  intros Hl. rewrite (det_unit_lower_aux l u n (le_n n) Hl). apply (det_ext O n D HD). intros i j Hi Hj. bcase.
Qed.

(** Row permutations. *)
Lemma det_tswap i k (f : nat -> nat -> T) : i < n -> k < n -> i <> k ->
  D (fun r j => f (tswap i k r) j) = neg (D f).
Proof.
  intros Hi Hk Hne. rewrite <- (det_swap i k f Hi Hk Hne). apply (det_ext O n D HD). intros a b Ha Hb.
  rewrite swapf_tswap. reflexivity.
Qed.

Lemma alt_neg k : neg (neg (alt k)) = (alt k : T).
Proof. ring. Qed.

Lemma det_cycle_len xs : forall s, cycle_on n s xs -> 0 < length xs ->
  D (perm_fun s) = alt (length xs - 1).
Proof.
  remember (length xs) as c eqn:Ec. revert xs Ec. induction c as [|c IH]; intros xs Ec s (Hnd & Hlt & Hch & Hfix) Hpos; [lia|].
  destruct xs as [|x0 xs]; [discriminate|]. destruct xs as [|x1 rest].
  - (* one-element cycle: identity *)
    simpl in Ec. injection Ec as ->. simpl. rewrite <- (det_one O n D HD). apply (det_ext O n D HD).
    intros i j Hi Hj. unfold perm_fun, delta. replace (s i) with i; [reflexivity|].
    destruct (Nat.eq_dec i x0) as [->|Hne]; [symmetry; exact Hch|]. symmetry. apply Hfix; [assumption|]. simpl. intuition.
  - simpl in Ec. injection Ec as Ec.
    inversion Hnd as [|? ? Hn0 Hnd1]; subst. inversion Hnd1 as [|? ? Hn1 Hnd2]; subst.
    assert (Hx0 : x0 < n) by (apply Hlt; simpl; auto). assert (Hx1 : x1 < n) by (apply Hlt; simpl; auto).
    assert (Hne : x0 <> x1) by (intro; subst; apply Hn0; simpl; auto).
    destruct Hch as [H01 Hch]. cbn [hd] in Hch.
    set (s' := fun r => s (tswap x0 x1 r)).
    assert (Ht0 : tswap x0 x1 x0 = x1) by (unfold tswap; rewrite Nat.eqb_refl; reflexivity).
    assert (Ht1 : tswap x0 x1 x1 = x0).
    { unfold tswap. destruct (Nat.eqb_spec x1 x0); [congruence|]. rewrite Nat.eqb_refl. reflexivity. }
    assert (Ht : forall r, r <> x0 -> r <> x1 -> tswap x0 x1 r = r).
    { intros r A B. unfold tswap. destruct (Nat.eqb_spec r x0); [congruence|]. destruct (Nat.eqb_spec r x1); [congruence|]. reflexivity. }
    assert (Hc' : cycle_on n s' (x0 :: rest)).
    { split; [|split; [|split]].
      - constructor; [|assumption]. intro Hin. apply Hn0. simpl. auto.
      - intros x [<-|Hin]; [assumption|]. apply Hlt. simpl. auto.
      - cbn [hd].
        assert (Hgen : forall l, (forall x, In x l -> x <> x0 /\ x <> x1) -> chain s l x0 -> chain s' l x0).
        { induction l as [|y l IHl]; intros Hl Hc; [exact I|].
          assert (Ey : s' y = s y) by (unfold s'; rewrite Ht; [reflexivity|apply Hl; simpl; auto|apply Hl; simpl; auto]).
          destruct l as [|z l].
          - simpl in *. congruence.
          - destruct Hc as [Hc1 Hc2]. split; [congruence|]. apply IHl; [|exact Hc2]. intros x Hx. apply Hl. simpl; auto. }
        destruct rest as [|x2 rest].
        + simpl. unfold s'. rewrite Ht0. exact Hch.
        + destruct Hch as [H12 Hch]. split; [unfold s'; rewrite Ht0; exact H12|].
          apply Hgen; [|exact Hch]. intros x Hx. split; intros ->; [apply Hn0 | apply Hn1]; simpl in *; auto.
      - intros i Hi Hni. unfold s'. destruct (Nat.eq_dec i x1) as [->|Hi1].
        + rewrite Ht1. exact H01.
        + assert (i <> x0) by (intros ->; apply Hni; simpl; auto).
          rewrite Ht by assumption. apply Hfix; [assumption|]. intros [->|[->|Hin]]; try congruence. apply Hni. simpl; auto. }
    pose proof (IH (x0 :: rest)) as IH'. simpl in IH'. specialize (IH' eq_refl s' Hc' ltac:(lia)).
    assert (Eneg : D (perm_fun s') = neg (D (perm_fun s))).
    { rewrite <- (det_tswap x0 x1 (perm_fun s) Hx0 Hx1 Hne). reflexivity. }
    rewrite IH' in Eneg. cbn [length Nat.sub]. 
    transitivity (neg (neg (D (perm_fun s)))); [ring|]. rewrite <- Eneg.
    rewrite !Nat.sub_0_r. reflexivity.
Qed.

(** Induction over permutations of 0..n-1 by transpositions. *)
Lemma perm_ind (Q : (nat -> nat) -> Prop) :
  (forall s, (forall i, i < n -> s i = i) -> Q s) ->
  (forall s i k, perm_on n s -> i < n -> k < n -> i <> k -> Q (fun r => s (tswap i k r)) -> Q s) ->
  forall s, perm_on n s -> Q s.
Proof.
  intros Q0 QS.
  assert (G : forall k, k <= n -> forall s, perm_on n s -> (forall i, k <= i -> i < n -> s i = i) -> Q s).
  { induction k as [|k IH]; intros Hk s Hs Hfix.
    - apply Q0. intros i Hi. apply Hfix; lia.
    - destruct (Nat.eq_dec (s k) k) as [E|E].
      + apply IH; [lia|assumption|]. intros i Hi Hin. destruct (Nat.eq_dec i k) as [->|]; [assumption|]. apply Hfix; lia.
      + destruct (perm_surj n s Hs k) as (r & Hr & Er); [lia|].
        assert (r <> k) by congruence.
        apply (QS s r k); [assumption|lia|lia|assumption|]. apply IH.
        * lia.
        * apply perm_comp; [assumption|]. apply tswap_perm; lia.
        * intros i Hi Hin. unfold tswap. destruct (Nat.eqb_spec i r) as [->|].
          -- exfalso. rewrite (Hfix r) in Er by lia. lia.
          -- destruct (Nat.eqb_spec i k) as [->|]; [assumption|]. apply Hfix; lia. }
  intros s Hs. apply (G n (le_n n) s Hs). intros; lia.
Qed.

Lemma det_perm s f : perm_on n s -> D (fun r j => f (s r) j) = mul (D (perm_fun s)) (D f).
Proof.
  revert s. apply (perm_ind (fun s => D (fun r j => f (s r) j) = mul (D (perm_fun s)) (D f))).
  - intros s Hs. rewrite (det_ext O n D HD (perm_fun s) delta), (det_one O n D HD).
    + rewrite (det_ext O n D HD _ f); [ring|]. intros i j Hi Hj. rewrite Hs by assumption. reflexivity.
    + intros i j Hi Hj. unfold perm_fun. rewrite Hs by assumption. reflexivity.
  - intros s i k Hs Hi Hk Hne H.
    assert (E1 : D (fun r j => f (s (tswap i k r)) j) = neg (D (fun r j => f (s r) j))).
    { apply (det_tswap i k (fun r j => f (s r) j)); assumption. }
    assert (E2 : D (perm_fun (fun r => s (tswap i k r))) = neg (D (perm_fun s))).
    { apply (det_tswap i k (perm_fun s)); assumption. }
    rewrite E1, E2 in H.
    transitivity (neg (neg (D (fun r j => f (s r) j)))); [ring|]. rewrite H. ring.
Qed.

Lemma det_perm_square s : perm_on n s -> mul (D (perm_fun s)) (D (perm_fun s)) = one.
Proof.
  revert s. apply (perm_ind (fun s => mul (D (perm_fun s)) (D (perm_fun s)) = one)).
  - intros s Hs. rewrite (det_ext O n D HD (perm_fun s) delta), (det_one O n D HD); [ring|].
    intros i j Hi Hj. unfold perm_fun. rewrite Hs by assumption. reflexivity.
  - intros s i k Hs Hi Hk Hne H.
    assert (E2 : D (perm_fun (fun r => s (tswap i k r))) = neg (D (perm_fun s))).
    { apply (det_tswap i k (perm_fun s)); assumption. }
    rewrite E2 in H. transitivity (mul (neg (D (perm_fun s))) (neg (D (perm_fun s)))); [ring | exact H].
Qed.

Lemma det_sign s : perm_on n s -> D (perm_fun s) = one \/ D (perm_fun s) = neg one.
Proof.
  revert s. apply (perm_ind (fun s => D (perm_fun s) = one \/ D (perm_fun s) = neg one)).
  - intros s Hs. left. rewrite (det_ext O n D HD (perm_fun s) delta), (det_one O n D HD); [reflexivity|].
    intros i j Hi Hj. unfold perm_fun. rewrite Hs by assumption. reflexivity.
  - intros s i k Hs Hi Hk Hne H.
    assert (E2 : D (perm_fun (fun r => s (tswap i k r))) = neg (D (perm_fun s))).
    { apply (det_tswap i k (perm_fun s)); assumption. }
    rewrite E2 in H. destruct H as [H|H]; [right|left];
    transitivity (neg (neg (D (perm_fun s)))); [ring | rewrite H; reflexivity | ring | rewrite H; ring].
Qed.

(** Linear combinations in one row. *)
Lemma det_row_sum r f m (c : nat -> T) (v : nat -> nat -> T) : r < n ->
  D (rowset r (fun j => sumn m (fun l => mul (c l) (v l j))) f) =
  sumn m (fun l => mul (c l) (D (rowset r (v l) f))).
Proof.
  intros Hr. induction m as [|m IH].
  - simpl. apply (det_zero_row r); [assumption|]. intros j Hj. unfold rowset. rewrite Nat.eqb_refl. reflexivity.
  - cbn [sumn]. rewrite (det_add O n D HD) by assumption. rewrite (det_scale O n D HD) by assumption.
    rewrite IH. reflexivity.
Qed.

(** The P A = L U formula. *)
Lemma det_of_lu f a s : perm_on n s ->
  (forall r c, r < n -> c < n -> f (s r) c = mulf n (lpart a) (upart a) r c) ->
  D f = mul (D (perm_fun s)) (prodn n (fun i => a i i)).
Proof.
  intros Hs H.
  assert (E : D (fun r j => f (s r) j) = prodn n (fun i => a i i)).
  { rewrite (det_ext O n D HD _ (mulf n (lpart a) (upart a)) H).
    rewrite det_unit_lower by (apply lpart_unit). rewrite det_upper by (apply upart_upper).
    apply prodn_ext. intros i Hi. unfold upart. rewrite Nat.leb_refl. reflexivity. }
  rewrite <- E, (det_perm s f Hs).
  transitivity (mul (mul (D (perm_fun s)) (D (perm_fun s))) (D f)); [|ring].
  rewrite det_perm_square by assumption. ring.
Qed.

End Fix.

(** ** Uniqueness *)

Lemma dup_dec n (s : nat -> nat) :
  (exists i j, i < j /\ j < n /\ s i = s j) \/ (forall i j, i < n -> j < n -> s i = s j -> i = j).
Proof.
  induction n as [|n IH]; [right; intros; lia|].
  destruct IH as [(i & j & H1 & H2 & H3)|IH]; [left; exists i, j; repeat split; auto; lia|].
  assert (Hd : (exists i, i < n /\ s i = s n) \/ forall i, i < n -> s i <> s n).
  { clear IH. generalize (s n). intros x. induction n as [|m IHm]; [right; intros; lia|].
    destruct IHm as [(i & H1 & H2)|IHm]; [left; exists i; split; auto; lia|].
    destruct (Nat.eq_dec (s m) x); [left; exists m; split; auto|].
    right. intros i Hi. destruct (Nat.eq_dec i m); [subst; assumption|]. apply IHm. lia. }
  destruct Hd as [(i & H1 & H2)|Hd]; [left; exists i, n; repeat split; auto|].
  right. intros i j Hi Hj E. destruct (Nat.eq_dec i n); destruct (Nat.eq_dec j n); subst; auto.
  - exfalso. apply (Hd j); [lia|congruence].
  - exfalso. apply (Hd i); [lia|congruence].
  - apply IH; auto; lia.
Qed.

Lemma is_det_unique n D1 D2 : is_det O n D1 -> is_det O n D2 -> forall f, D1 f = D2 f.
Proof.
  intros H1 H2.
  (* rows i >= k are unit rows e_(s i) *)
  assert (G : forall k, k <= n -> forall f s, (forall i, k <= i -> i < n -> s i < n /\ forall j, j < n -> f i j = delta (s i) j) ->
     D1 f = D2 f).
  { induction k as [|k IH]; intros Hk f s Hf.
    - rewrite (det_ext O n D1 H1 f (perm_fun s)), (det_ext O n D2 H2 f (perm_fun s));
        try (intros i j Hi Hj; apply Hf; lia).
      destruct (dup_dec n s) as [(i & j & Hij & Hj & E)|Hinj].
      + rewrite (det_alt O n D1 H1 _ i j), (det_alt O n D2 H2 _ i j); auto; try lia;
        intros c Hc; unfold perm_fun; rewrite E; reflexivity.
      + assert (Hs : perm_on n s) by (split; [intros i Hi; apply Hf; lia | exact Hinj]).
        revert Hs. clear Hf Hinj. revert s. apply (perm_ind n (fun s => D1 (perm_fun s) = D2 (perm_fun s))).
        * intros s Hs. rewrite (det_ext O n D1 H1 _ delta), (det_ext O n D2 H2 _ delta).
          -- rewrite (det_one O n D1 H1), (det_one O n D2 H2). reflexivity.
          -- intros i j Hi Hj. unfold perm_fun. rewrite Hs by assumption. reflexivity.
          -- intros i j Hi Hj. unfold perm_fun. rewrite Hs by assumption. reflexivity.
        * intros s i k Hs Hi Hk' Hne E.
          pose proof (det_tswap n D1 H1 i k (perm_fun s) Hi Hk' Hne) as E1.
          pose proof (det_tswap n D2 H2 i k (perm_fun s) Hi Hk' Hne) as E2.
          change (D1 (fun r j => perm_fun s (tswap i k r) j) = D2 (fun r j => perm_fun s (tswap i k r) j)) in E.
          rewrite E1, E2 in E.
          transitivity (neg (neg (D1 (perm_fun s)))); [ring|]. rewrite E. ring.
    - assert (Ef : forall D, is_det O n D -> D f = sumn n (fun l => mul (f k l) (D (rowset k (delta l) f)))).
      { intros D HD. rewrite <- (det_row_sum n D HD k f n (f k) delta) by lia.
        apply (det_ext O n D HD). intros i j Hi Hj. unfold rowset. destruct (Nat.eqb_spec i k) as [->|]; [|reflexivity].
        symmetry. apply (sumn_delta_r L n j (fun l => f k l)). assumption. }
      rewrite (Ef D1 H1), (Ef D2 H2). apply sumn_ext. intros l Hl. f_equal.
      apply (IH ltac:(lia) _ (fun i => if i =? k then l else s i)).
      intros i Hi Hin. unfold rowset. destruct (Nat.eqb_spec i k) as [->|]; [auto|]. apply Hf; lia. }
  intros f. apply (G n (le_n n) f (fun i => i)). intros; lia.
Qed.

(** ** Existence: Laplace expansion along the first column *)

Definition skip (i a : nat) : nat := if a <? i then a else S a.
Definition minor (i : nat) (f : nat -> nat -> T) : nat -> nat -> T := fun a b => f (skip i a) (S b).
Fixpoint lapl (n : nat) (f : nat -> nat -> T) : T :=
  match n with
  | 0 => one
  | S m => sumn (S m) (fun i => mul (mul (alt i) (f i 0)) (lapl m (minor i f)))
  end.

Lemma skip_lt i a n : a < n -> skip i a < S n.
Proof. unfold skip. bcase. Qed.

Lemma lapl_ext n : forall f g, (forall i j, i < n -> j < n -> f i j = g i j) -> lapl n f = lapl n g.
Proof.
  induction n as [|n IH]; intros f g H; [reflexivity|]. cbn [lapl]. apply sumn_ext. intros i Hi.
  rewrite H by lia. f_equal. apply IH. intros a b Ha Hb. unfold minor. apply H; [|lia]. apply skip_lt. assumption.
Qed.

Definition unskip (i r : nat) : nat := if r <? i then r else r - 1.

Lemma minor_rowset n i r u f a b : i < S n -> r < S n -> a < n ->
  minor i (rowset r u f) a b = if i =? r then minor i f a b else rowset (unskip i r) (fun j => u (S j)) (minor i f) a b.
Proof.
  intros Hi Hr Ha. unfold minor, rowset, skip, unskip.
  destruct (Nat.eqb_spec i r) as [->|Hne].
  - destruct (Nat.ltb_spec a r); destruct (Nat.eqb_spec a r); destruct (Nat.eqb_spec (S a) r); try reflexivity; lia.
  - destruct (Nat.ltb_spec a i); destruct (Nat.ltb_spec r i).
    + destruct (Nat.eqb_spec a r); reflexivity.
    + destruct (Nat.eqb_spec a r); [lia|]. destruct (Nat.eqb_spec a (r - 1)); [lia|]. reflexivity.
    + destruct (Nat.eqb_spec (S a) r); [lia|]. destruct (Nat.eqb_spec a r); [lia|]. reflexivity.
    + destruct (Nat.eqb_spec (S a) r); destruct (Nat.eqb_spec a (r - 1)); try lia; reflexivity.
Qed.

Lemma lapl_rowset n r u f : r < S n ->
  lapl (S n) (rowset r u f) =
  sumn (S n) (fun i => if i =? r then mul (mul (alt i) (u 0)) (lapl n (minor i f))
     else mul (mul (alt i) (f i 0)) (lapl n (rowset (unskip i r) (fun j => u (S j)) (minor i f)))).
Proof.
  intros Hr. cbn [lapl]. apply sumn_ext. intros i Hi.
  rewrite (lapl_ext n _ (fun a b => if i =? r then minor i f a b else rowset (unskip i r) (fun j => u (S j)) (minor i f) a b)).
  2:{ intros a b Ha Hb. apply (minor_rowset n); assumption. }
  unfold rowset at 1. destruct (i =? r); reflexivity.
Qed.

Lemma unskip_lt n i r : i < S n -> r < S n -> i <> r -> unskip i r < n.
Proof. unfold unskip. intros. bcase. Qed.

Lemma sumn_two n r s (g : nat -> T) : r < n -> s < n -> r <> s ->
  (forall i, i < n -> i <> r -> i <> s -> g i = zero) -> sumn n g = add (g r) (g s).
Proof.
  intros Hr Hs Hne H.
  rewrite (sumn_ext n g (fun i => add (if i =? r then g i else zero) (if i =? r then zero else g i))).
  2:{ intros i Hi. destruct (i =? r); ring. }
  rewrite (sumn_add L). rewrite (sumn_single L n r), (sumn_single L n s); auto.
  - rewrite Nat.eqb_refl. destruct (Nat.eqb_spec s r); [congruence|]. reflexivity.
  - intros i Hi Hi'. destruct (Nat.eqb_spec i r); [reflexivity|]. apply H; auto.
  - intros i Hi Hi'. destruct (Nat.eqb_spec i r); [congruence|reflexivity].
Qed.

Lemma lapl_is_det n : is_det O n (lapl n).
Proof.
  induction n as [|n IH].
  - constructor; try (intros; lia); reflexivity.
  - assert (Hadd : forall f r u v, r < S n -> lapl (S n) (rowset r (fun j => add (u j) (v j)) f) =
                    add (lapl (S n) (rowset r u f)) (lapl (S n) (rowset r v f))).
    { intros f r u v Hr. rewrite !lapl_rowset by assumption. rewrite <- (sumn_add L). apply sumn_ext. intros i Hi.
      destruct (Nat.eqb_spec i r); [ring|].
      rewrite (det_add O n (lapl n) IH) by (apply unskip_lt; assumption). ring. }
    assert (Hadj : forall f r, S r < S n -> (forall j, j < S n -> f r j = f (S r) j) -> lapl (S n) f = zero).
    { intros f r Hr E. cbn [lapl]. rewrite (sumn_two (S n) r (S r)); try lia.
      - rewrite (E 0) by lia. rewrite (lapl_ext n (minor r f) (minor (S r) f)).
        + cbn [alt]. ring.
        + intros a b Ha Hb. unfold minor, skip.
          destruct (Nat.ltb_spec a r); destruct (Nat.ltb_spec a (S r)); try lia; try reflexivity.
          assert (a = r) by lia. subst a. symmetry. apply E. lia.
      - intros i Hi H1 H2. rewrite (det_alt O n (lapl n) IH (minor i f) (unskip i r) (unskip i (S r))).
        + ring.
        + apply unskip_lt; auto; lia.
        + apply unskip_lt; auto.
        + unfold unskip. bcase.
        + intros j Hj. unfold minor.
          replace (skip i (unskip i r)) with r by (unfold skip, unskip; bcase).
          replace (skip i (unskip i (S r))) with (S r) by (unfold skip, unskip; bcase).
          apply E. lia. }
    assert (Halt : forall d f r, r + S d < S n -> (forall j, j < S n -> f r j = f (r + S d) j) -> lapl (S n) f = zero).
    { induction d as [|d IHd]; intros f r Hr E.
      - apply (Hadj f r); [lia|]. intros j Hj. rewrite E by assumption. replace (r + 1) with (S r) by lia. reflexivity.
      - set (s := r + S d).
        assert (Es : lapl (S n) (swapf s (S s) f) = neg (lapl (S n) f)).
        { apply (swap_of_alt (S n) (lapl (S n)) s (S s)); auto; try (unfold s; lia).
          - apply lapl_ext.
          - intros g Hg. apply (Hadj g s); [unfold s; lia | assumption]. }
        assert (Ez : lapl (S n) (swapf s (S s) f) = zero).
        { apply (IHd _ r); [lia|]. intros j Hj. fold s. unfold swapf.
          destruct (Nat.eqb_spec r s); [unfold s in *; lia|]. destruct (Nat.eqb_spec r (S s)); [unfold s in *; lia|].
          rewrite Nat.eqb_refl. replace (S s) with (r + S (S d)) by (unfold s; lia). apply E. assumption. }
        rewrite Ez in Es. transitivity (neg (neg (lapl (S n) f))); [ring|]. rewrite <- Es. ring. }
    constructor.
    + apply lapl_ext.
    + exact Hadd.
    + intros f r c u Hr. rewrite !lapl_rowset by assumption. rewrite <- (sumn_mul_l L). apply sumn_ext. intros i Hi.
      destruct (Nat.eqb_spec i r); [ring|].
      rewrite (det_scale O n (lapl n) IH) by (apply unskip_lt; assumption). ring.
    + intros f r s Hr Hs Hne E. destruct (Nat.lt_ge_cases r s).
      * apply (Halt (s - r - 1) f r); [lia|]. replace (r + S (s - r - 1)) with s by lia. assumption.
      * apply (Halt (r - s - 1) f s); [lia|]. replace (s + S (r - s - 1)) with r by lia. intros j Hj. symmetry. auto.
    + cbn [lapl]. rewrite (sumn_single L (S n) 0).
      * rewrite (lapl_ext n _ delta), (det_one O n (lapl n) IH); [cbn [alt]; unfold delta; simpl; ring|].
        intros i j Hi Hj. unfold minor, delta, skip. simpl. reflexivity.
      * lia.
      * intros i Hi Hne. unfold delta at 1. destruct (Nat.eqb_spec i 0); [congruence|]. ring.
Qed.

Lemma is_det_exists n : exists D, is_det O n D.
Proof. exists (lapl n). apply lapl_is_det. Qed.

Lemma det_2 D f : is_det O 2 D -> D f = sub (mul (f 0 0) (f 1 1)) (mul (f 0 1) (f 1 0)).
Proof.
  intros H. rewrite (is_det_unique 2 D (lapl 2) H (lapl_is_det 2)).
  simpl. unfold minor, skip. simpl. ring.
Qed.
Lemma det_1 D f : is_det O 1 D -> D f = f 0 0.
Proof.
  intros H. rewrite (is_det_unique 1 D (lapl 1) H (lapl_is_det 1)). simpl. ring.
Qed.

End D.

(** ** The program *)
Section Prog.
Context {T : Type} {O : Ops T} (F : FieldLaws O).
Let L := fl_ring O F.
Add Ring TrDP : (rl_ring O L).

Definition moved (n : nat) (s : nat -> nat) : nat := length (filter (fun i => negb (s i =? i)) (seq 0 n)).

Lemma moved_S n s : moved (S n) s = moved n s + (if s n =? n then 0 else 1).
Proof.
  unfold moved. rewrite seq_S, filter_app, app_length. simpl. destruct (s n =? n); reflexivity.
Qed.

Definition det_perm_sign (pow : T -> nat -> T) (c : nat) : T := if c =? 0 then one else pow (neg one) (c - 1).

Lemma mdet_gen pow A n f : is_mat A n n f -> n <> 1 -> n <> 2 ->
  exists Lm U P a s, dec_lu A = Ret (Ok (mkLU Lm U P)) /\
    is_mat Lm n n (lpart a) /\ is_mat U n n (upart a) /\ is_mat P n n (perm_fun s) /\ perm_on n s /\
    (forall r c, r < n -> c < n -> f (s r) c = add (mulf n (lpart a) (upart a) r c) (lu_err a r c)) /\
    mdet pow A = Ret (mul (det_perm_sign pow (moved n s)) (prodn n (fun i => a i i))).
Proof.
  intros HA Hn1 Hn2. destruct (dec_lu_spec F A n f HA) as (Lm & U & P & a & s & E & HL & HU & HP & Hs & He).
  exists Lm, U, P, a, s. repeat (split; [assumption|]).
  destruct (is_mat_dim _ _ _ _ HA) as [R C]. unfold mdet. rewrite R, C, Nat.eqb_refl. cbn [rassert bind].
  destruct (Nat.eqb_spec n 1); [congruence|]. destruct (Nat.eqb_spec n 2); [congruence|].
  rewrite E. cbn [bind lu_u lu_p].
  match goal with |- context [for_loop 0 n ?body one] => set (bd := body) end.
  destruct (for_loop_ind (fun k x => x = prodn k (fun i => a i i)) bd 0 n one) as (x & E1 & ->).
  - lia.
  - reflexivity.
  - intros i x Hi ->. unfold bd. rewrite (is_mat_get _ _ _ _ i i HU) by lia. cbn [bind].
    eexists; split; [reflexivity|]. rewrite upart_diag. reflexivity.
  - rewrite E1. cbn [bind].
    match goal with |- context [for_loop 0 n ?body 0] => set (bd2 := body) end.
    destruct (for_loop_ind (fun k c => c = moved k s) bd2 0 n 0) as (c & E2 & ->).
    + lia.
    + reflexivity.
    + intros i c Hi ->. unfold bd2. rewrite (is_mat_get _ _ _ _ i i HP) by lia. cbn [bind].
      rewrite moved_S. unfold perm_fun. destruct (s i =? i) eqn:Es.
      * replace (eqb (one : T) one) with true by (symmetry; apply (fl_eq O F); reflexivity). cbn [negb].
        eexists; split; [reflexivity|]. lia.
      * replace (eqb (zero : T) one) with false.
        2:{ symmetry. destruct (eqb (zero : T) one) eqn:E3; [|reflexivity]. apply (fl_eq O F) in E3.
            exfalso. apply (fl_one_zero O F). congruence. }
        cbn [negb]. eexists; split; [reflexivity|]. lia.
    + rewrite E2. cbn [bind]. unfold det_perm_sign. destruct (Nat.eqb_spec (moved n s) 0).
      * reflexivity.
      * cbn [negb]. rewrite usub_ok by lia. reflexivity.
Qed.

(** Length of the moved set of a cycle. *)
Lemma chain_moves s xs x0 x : chain s xs x0 -> NoDup xs -> ~ In x0 (tl xs) -> 2 <= length xs \/ (exists y, xs = [y] /\ y <> x0) ->
  In x xs -> s x <> x.
Proof.
  revert x. induction xs as [|y xs IH]; intros x Hc Hnd Hx0 Hlen Hin; [destruct Hin|].
  destruct xs as [|z xs].
  - destruct Hin as [<-|[]]. simpl in Hc. destruct Hlen as [Hl|(w & Hw & Hne)]; [simpl in Hl; lia|].
    injection Hw as <-. congruence.
  - destruct Hc as [H1 H2]. pose proof (NoDup_cons_iff y (z :: xs)) as HN. apply HN in Hnd. destruct Hnd as [Hn Hnd']. clear HN.
    destruct Hin as [<-|Hin].
    + intro Heq. apply Hn. simpl. left. congruence.
    + apply (IH x); auto.
      * simpl in Hx0. simpl. tauto.
      * destruct xs as [|w xs]; [|left; simpl; lia]. right. exists z. split; [reflexivity|].
        simpl in Hx0. intuition congruence.
Qed.

Lemma moved_cycle n s xs : cycle_on n s xs -> 2 <= length xs -> moved n s = length xs.
Proof.
  intros (Hnd & Hlt & Hch & Hfix) Hlen. unfold moved.
  apply Permutation.Permutation_length. apply Permutation.NoDup_Permutation.
  - apply NoDup_filter. apply seq_NoDup.
  - assumption.
  - intros x. rewrite filter_In, in_seq. split.
    + intros [Hx Hm]. destruct (in_dec Nat.eq_dec x xs); [assumption|]. exfalso.
      rewrite Hfix in Hm by (auto; lia). rewrite Nat.eqb_refl in Hm. discriminate.
    + intros Hin. split; [specialize (Hlt x Hin); lia|].
      assert (Hne : s x <> x).
      { destruct xs as [|x0 xs]; [destruct Hin|]. apply (chain_moves s (x0 :: xs) x0); auto.
        simpl. inversion Hnd; assumption. }
      apply Nat.eqb_neq in Hne. rewrite Hne. reflexivity.
Qed.

Lemma moved_fixed n s : (forall i, i < n -> s i = i) -> moved n s = 0.
Proof.
  intros H. unfold moved. induction n as [|n IH]; [reflexivity|].
  change (moved (S n) s = 0). rewrite moved_S. unfold moved. rewrite IH by auto. rewrite H, Nat.eqb_refl by lia. reflexivity.
Qed.

Lemma det_sign_cycle pow n D s xs : is_det O n D -> (forall k, pow (neg one) k = alt k) ->
  cycle_on n s xs -> 0 < length xs -> det_perm_sign pow (moved n s) = D (perm_fun s).
Proof.
  intros HD Hpow Hc Hlen. rewrite (det_cycle_len L n D HD xs s Hc Hlen). unfold det_perm_sign.
  destruct (Nat.eq_dec (length xs) 1) as [E1|E1].
  - rewrite moved_fixed; [rewrite E1; reflexivity|]. destruct Hc as (_ & _ & Hch & Hfix).
    destruct xs as [|x0 [|? ?]]; simpl in E1; try lia. intros i Hi. destruct (Nat.eq_dec i x0) as [->|]; [exact Hch|].
    apply Hfix; [assumption|]. simpl. intuition.
  - rewrite (moved_cycle n s xs Hc) by lia. destruct (Nat.eqb_spec (length xs) 0); [lia|]. apply Hpow.
Qed.

Lemma perm_fun_unique n (P : matrix T) s s' : is_mat P n n (perm_fun s) -> is_mat P n n (perm_fun s') -> perm_on n s ->
  forall i, i < n -> s' i = s i.
Proof.
  intros H H' Hs i Hi. pose proof (is_mat_entry_unique _ _ _ _ _ i (s i) H H' Hi (proj1 Hs i Hi)) as E.
  unfold perm_fun in E. rewrite Nat.eqb_refl in E. destruct (Nat.eqb_spec (s' i) (s i)); [assumption|].
  exfalso. apply (fl_one_zero O F). assumption.
Qed.

(** Main statement: whenever the returned factors multiply up to P A and P is a single cycle, det is right. *)
Lemma mdet_ok pow A n f D : is_mat A n n f -> is_det O n D -> (forall k, pow (neg one) k = alt k) ->
  (forall d, 3 <= n -> dec_lu A = Ret (Ok d) ->
     (exists PA, mmul (lu_p d) A = Ret PA /\ mmul (lu_l d) (lu_u d) = Ret PA) /\
     (exists s xs, is_mat (lu_p d) n n (perm_fun s) /\ cycle_on n s xs /\ 0 < length xs)) ->
  mdet pow A = Ret (D f).
Proof.
  intros HA HD Hpow H.
  destruct (Nat.eq_dec n 1) as [->|Hn1].
  { destruct (is_mat_dim _ _ _ _ HA) as [R C]. unfold mdet. rewrite R, C. simpl.
    rewrite (is_mat_get _ _ _ _ _ _ HA) by lia. rewrite (det_1 L D f HD). reflexivity. }
  destruct (Nat.eq_dec n 2) as [->|Hn2].
  { destruct (is_mat_dim _ _ _ _ HA) as [R C]. unfold mdet. rewrite R, C. simpl.
    rewrite !(is_mat_get _ _ _ _ _ _ HA) by lia. simpl. rewrite (det_2 L D f HD). reflexivity. }
  destruct (mdet_gen pow A n f HA Hn1 Hn2) as (Lm & U & P & a & s & E & HL & HU & HP & Hs & He & ->).
  f_equal. destruct (Nat.eq_dec n 0) as [->|Hn0].
  { simpl. unfold det_perm_sign, moved. simpl. rewrite (det_ext O 0 D HD f delta), (det_one O 0 D HD) by (intros; lia). ring. }
  destruct (H _ ltac:(lia) E) as ((PA & E1 & E2) & s' & xs & Hs' & Hc & Hl). cbn [lu_p lu_l lu_u] in *.
  assert (Hss : forall i, i < n -> s' i = s i) by (apply (perm_fun_unique n P); assumption).
  assert (Hf : forall r c, r < n -> c < n -> f (s r) c = mulf n (lpart a) (upart a) r c).
  { destruct (mmul_spec P A n n n _ _ HP HA) as (C1 & F1 & G1). rewrite F1 in E1. injection E1 as ->.
    destruct (mmul_spec Lm U n n n _ _ HL HU) as (C2 & F2 & G2). rewrite F2 in E2. injection E2 as ->.
    intros r c Hr Hc'. rewrite <- (perm_mulf F n s f r c Hs Hr).
    exact (is_mat_entry_unique _ _ _ _ _ r c G1 G2 Hr Hc'). }
  rewrite (det_of_lu L n D HD f a s Hs Hf). f_equal.
  rewrite (det_ext O n D HD (perm_fun s) (perm_fun s')).
  2:{ intros i j Hi Hj. unfold perm_fun. rewrite Hss by assumption. reflexivity. }
  rewrite <- (det_sign_cycle pow n D s' xs HD Hpow Hc Hl).
  f_equal. unfold moved. f_equal. apply filter_ext_in. intros i Hi. apply in_seq in Hi. rewrite Hss by lia. reflexivity.
Qed.

(** Up to sign it is always right when the factors multiply up. *)
Lemma mdet_abs pow A n f D : is_mat A n n f -> is_det O n D -> (forall k, pow (neg one) k = alt k) ->
  (forall d, 3 <= n -> dec_lu A = Ret (Ok d) ->
     exists PA, mmul (lu_p d) A = Ret PA /\ mmul (lu_l d) (lu_u d) = Ret PA) ->
  mdet pow A = Ret (D f) \/ mdet pow A = Ret (neg (D f)).
Proof.
  intros HA HD Hpow H.
  destruct (le_lt_dec 3 n) as [H3|H3].
  - destruct (mdet_gen pow A n f HA ltac:(lia) ltac:(lia)) as (Lm & U & P & a & s & E & HL & HU & HP & Hs & He & ->).
    destruct (H _ H3 E) as (PA & E1 & E2). cbn [lu_p lu_l lu_u] in *.
    assert (Hf : forall r c, r < n -> c < n -> f (s r) c = mulf n (lpart a) (upart a) r c).
    { destruct (mmul_spec P A n n n _ _ HP HA) as (C1 & F1 & G1). rewrite F1 in E1. injection E1 as ->.
      destruct (mmul_spec Lm U n n n _ _ HL HU) as (C2 & F2 & G2). rewrite F2 in E2. injection E2 as ->.
      intros r c Hr Hc'. rewrite <- (perm_mulf F n s f r c Hs Hr).
      exact (is_mat_entry_unique _ _ _ _ _ r c G1 G2 Hr Hc'). }
    rewrite (det_of_lu L n D HD f a s Hs Hf). set (p := prodn n _).
    assert (Ha : forall k, alt k = one \/ alt k = neg one).
    { induction k as [|k [IH|IH]]; [left; reflexivity|right|left]; cbn [alt]; rewrite IH; [reflexivity|ring]. }
    assert (Hsg : det_perm_sign pow (moved n s) = one \/ det_perm_sign pow (moved n s) = neg one).
    { unfold det_perm_sign. destruct (moved n s =? 0); [left; reflexivity|]. rewrite Hpow. apply Ha. }
    destruct Hsg as [-> | ->]; destruct (det_sign L n D HD s Hs) as [-> | ->].
    + left; reflexivity.
    + right; f_equal; ring.
    + right; f_equal; ring.
    + left; reflexivity.
  - left. apply (mdet_ok pow A n f D HA HD Hpow). intros; lia.
Qed.

Lemma perm3_cycle s : perm_on 3 s -> exists xs, cycle_on 3 s xs /\ 0 < length xs.
Proof.
  intros [H1 H2].
  pose proof (H1 0 ltac:(lia)). pose proof (H1 1 ltac:(lia)). pose proof (H1 2 ltac:(lia)).
  assert (s 0 <> s 1) by (intro E; apply H2 in E; lia).
  assert (s 0 <> s 2) by (intro E; apply H2 in E; lia).
  assert (s 1 <> s 2) by (intro E; apply H2 in E; lia).
  assert (C : forall xs, NoDup xs -> (forall x, In x xs -> x < 3) -> chain s xs (hd 0 xs) ->
     (forall i, i < 3 -> ~ In i xs -> s i = i) -> 0 < length xs -> exists xs, cycle_on 3 s xs /\ 0 < length xs).
  { intros xs P1 P2 P3 P4 P5. exists xs. split; [repeat split; assumption|assumption]. }
  assert (F3 : forall i, i < 3 -> i = 0 \/ i = 1 \/ i = 2) by (intros; lia).
  destruct (F3 (s 0)) as [E0|[E0|E0]]; auto; destruct (F3 (s 1)) as [E1|[E1|E1]]; auto;
  destruct (F3 (s 2)) as [E2|[E2|E2]]; auto; try congruence.
  - apply (C [0]); [repeat constructor; simpl; lia | simpl; lia | simpl; auto | | simpl; lia].
    intros i Hi Hn. destruct (F3 i Hi) as [Ei|[Ei|Ei]]; subst i; simpl in Hn; auto; exfalso; apply Hn; auto.
  - apply (C [1;2]); [repeat constructor; simpl; lia | simpl; lia | simpl; auto | | simpl; lia].
    intros i Hi Hn. destruct (F3 i Hi) as [Ei|[Ei|Ei]]; subst i; simpl in Hn; auto; exfalso; apply Hn; auto.
  - apply (C [0;1]); [repeat constructor; simpl; lia | simpl; lia | simpl; auto | | simpl; lia].
    intros i Hi Hn. destruct (F3 i Hi) as [Ei|[Ei|Ei]]; subst i; simpl in Hn; auto; exfalso; apply Hn; auto.
  - apply (C [0;1;2]); [repeat constructor; simpl; lia | simpl; lia | simpl; auto | | simpl; lia].
    intros i Hi Hn. destruct (F3 i Hi) as [Ei|[Ei|Ei]]; subst i; simpl in Hn; auto; exfalso; apply Hn; auto.
  - apply (C [0;2;1]); [repeat constructor; simpl; lia | simpl; lia | simpl; auto | | simpl; lia].
    intros i Hi Hn. destruct (F3 i Hi) as [Ei|[Ei|Ei]]; subst i; simpl in Hn; auto; exfalso; apply Hn; auto.
  - apply (C [0;2]); [repeat constructor; simpl; lia | simpl; lia | simpl; auto | | simpl; lia].
    intros i Hi Hn. destruct (F3 i Hi) as [Ei|[Ei|Ei]]; subst i; simpl in Hn; auto; exfalso; apply Hn; auto.
Qed.

Lemma mdet_3 pow A n f D : n <= 3 -> is_mat A n n f -> is_det O n D -> (forall k, pow (neg one) k = alt k) ->
  (forall d, n = 3 -> dec_lu A = Ret (Ok d) ->
     exists PA, mmul (lu_p d) A = Ret PA /\ mmul (lu_l d) (lu_u d) = Ret PA) ->
  mdet pow A = Ret (D f).
Proof.
  intros Hn HA HD Hpow H. apply (mdet_ok pow A n f D HA HD Hpow). intros d H3 Ed.
  split; [apply H; [lia|assumption]|].
  assert (n = 3) by lia. subst n.
  destruct (dec_lu_total A 3 f HA) as (Lm & U & P & a & s & E & HL & HU & HP & Hs).
  rewrite Ed in E. injection E as ->. cbn [lu_p]. destruct (perm3_cycle s Hs) as (xs & Hc & Hl).
  exists s, xs. auto.
Qed.

(** det(A) = 0 exactly when U has a zero pivot (given P A = L U): singular matrices. *)
Lemma prodn_zero_iff n (g : nat -> T) : prodn n g = zero <-> exists k, k < n /\ g k = zero.
Proof.
  induction n as [|n IH]; cbn [prodn].
  - split; [intros E; destruct (fl_one_zero O F E) | intros (k & Hk & _); lia].
  - split.
    + intros E. destruct (eqb (g n) zero) eqn:Ez.
      * apply (fl_eq O F) in Ez. eauto.
      * assert (Hz : g n <> zero) by (intro Hz; apply (fl_eq O F) in Hz; congruence).
        assert (E' : prodn n g = zero).
        { apply (mul_zero_inv F (g n)); [assumption|]. rewrite <- E. ring. }
        apply IH in E'. destruct E' as (k & Hk & E'). exists k. split; [lia|assumption].
    + intros (k & Hk & E). destruct (Nat.eq_dec k n) as [->|].
      * rewrite E. ring.
      * assert (E' : prodn n g = zero) by (apply IH; exists k; split; [lia|assumption]). rewrite E'. ring.
Qed.

End Prog.
