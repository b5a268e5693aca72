(** Proofs about the Cholesky decomposition. *)
From Coq Require Import Arith List Bool Lia Ring Reals Lra.
From Verif Require Import Outcome Scalar Matrix_model Transpose_model Vector_model LU_model Decomp_model Matrix_spec LU_spec
  Decomp_spec Matrix_proofs Transpose_proofs Vector_proofs Sums MatProps_proofs VecProps_proofs LU_proofs Subst_proofs RealOps.
Import ListNotations.
Local Open Scope nat_scope.

Section Gen.
Context {T : Type} {O : Ops T} {P : POps T}.

(** The recurrence the loops compute. *)
Definition chol_at (a g : nat -> nat -> T) (r c : nat) : Prop :=
  g r c = if r <? c then zero
          else if r =? c then tsqrt (sub (a r r) (sumn r (fun k => mul (g r k) (g r k))))
          else div (sub (a r c) (sumn c (fun k => mul (g r k) (g c k)))) (g c c).

Definition chol_state (n : nat) (a g : nat -> nat -> T) (i j : nat) : Prop :=
  forall r c, r < n -> c < n ->
    if (r <? i) || ((r =? i) && (c <? j)) then chol_at a g r c else g r c = zero.

Lemma chol_at_ext a g g' r c :
  (forall k, k <= c -> g r k = g' r k) -> (c < r -> forall k, k <= c -> g c k = g' c k) -> chol_at a g r c -> chol_at a g' r c.
Proof.
  intros H1 H2 H. unfold chol_at in *. rewrite <- (H1 c) by lia. rewrite H.
  destruct (Nat.ltb_spec r c); [reflexivity|]. destruct (Nat.eqb_spec r c).
  - subst c. rewrite (sumn_ext r _ (fun k => mul (g' r k) (g' r k))); [reflexivity|].
    intros k Hk. rewrite (H1 k) by lia. reflexivity.
  - rewrite (H2 ltac:(lia) c) by lia. rewrite (sumn_ext c _ (fun k => mul (g' r k) (g' c k))); [reflexivity|].
    intros k Hk. rewrite (H1 k), (H2 ltac:(lia) k) by lia. reflexivity.
Qed.

Lemma dec_cholesky_spec A n a : is_mat A n n a ->
  exists l g, dec_cholesky A = Ret (Ok l) /\ is_mat l n n g /\ forall r c, r < n -> c < n -> chol_at a g r c.
Proof.
  intros HA. destruct (is_mat_dim _ _ _ _ HA) as [R C]. unfold dec_cholesky. rewrite R, C, Nat.eqb_refl.
  cbn [rassert bind].
  match goal with |- context [for_loop 0 n ?body _] => set (bd := body) end.
  destruct (for_loop_ind (fun i l => exists g, is_mat l n n g /\ chol_state n a g i 0) bd 0 n (mzero n n)) as (l & E & g & Hl & Hg).
  - lia.
  - exists (fun _ _ => zero). split; [apply mzero_spec|]. intros r c Hr Hc.
    replace ((r <? 0) || ((r =? 0) && (c <? 0))) with false; [reflexivity|]. destruct (r =? 0); reflexivity.
  - intros i l Hi (g0 & Hl0 & Hg0). unfold bd.
    match goal with |- context [for_loop 0 (i+1) ?body _] => set (bd2 := body) end.
    destruct (for_loop_ind (fun j l => exists g, is_mat l n n g /\ chol_state n a g i j) bd2 0 (i+1) l) as (l' & E' & g' & Hl' & Hg').
    + lia.
    + exists g0. auto.
    + intros j l1 Hj (g & Hl & Hg). unfold bd2.
      assert (Es : for_loop 0 j (fun k s => let! x := mget l1 i k in let! y := mget l1 j k in Ret (add s (mul x y))) zero
                   = Ret (sumn j (fun k => mul (g i k) (g j k)))).
      { match goal with |- for_loop 0 j ?body _ = _ => set (bd3 := body) end.
        destruct (for_loop_ind (fun k s => s = sumn k (fun k => mul (g i k) (g j k))) bd3 0 j zero) as (s & E3 & ->); [lia|reflexivity| |exact E3].
        intros k s Hk ->. unfold bd3. rewrite (is_mat_get _ _ _ _ i k Hl), (is_mat_get _ _ _ _ j k Hl) by lia. cbn [bind].
        eexists. split; reflexivity. }
      rewrite Es. cbn [bind]. clear Es.
      set (nv := if i =? j then tsqrt (sub (a i i) (sumn j (fun k => mul (g i k) (g j k))))
                 else div (sub (a i j) (sumn j (fun k => mul (g i k) (g j k)))) (g j j)).
      destruct (mset_spec l1 n n g i j nv Hl) as (l2 & E2 & H2); [lia|lia|].
      exists l2. split.
      { unfold nv in E2. destruct (Nat.eqb_spec i j).
        - rewrite (is_mat_get _ _ _ _ i i HA) by lia. exact E2.
        - rewrite (is_mat_get _ _ _ _ i j HA), (is_mat_get _ _ _ _ j j Hl) by lia. exact E2. }
      exists (fupd g i j nv). split; [exact H2|].
      intros r c Hr Hc. pose proof (Hg r c Hr Hc) as Hrc.
      assert (Same : forall r c, (r, c) <> (i, j) -> g r c = fupd g i j nv r c).
      { intros r' c' Hne. unfold fupd. destruct (Nat.eqb_spec r' i); destruct (Nat.eqb_spec c' j); cbn [andb]; congruence. }
      destruct (Nat.ltb_spec r i) as [Hri|Hri]; cbn [orb] in *.
      { apply (chol_at_ext a g); [| |exact Hrc].
        - intros k Hk. apply Same. intro E3. injection E3. lia.
        - intros Hcr k Hk. apply Same. intro E3. injection E3. lia. }
      destruct (Nat.eqb_spec r i) as [->|Hne]; cbn [andb] in *.
      2:{ rewrite <- Same; [exact Hrc|]. intro E3. injection E3. lia. }
      destruct (Nat.ltb_spec c (S j)) as [Hcj|Hcj].
      2:{ replace (c <? j) with false in Hrc by (symmetry; apply Nat.ltb_ge; lia).
          rewrite <- Same; [exact Hrc|]. intro E3. injection E3. lia. }
      destruct (Nat.eq_dec c j) as [->|Hcne].
      * unfold chol_at. rewrite (sumn_ext i (fun k => mul (fupd g i j nv i k) (fupd g i j nv i k))
          (fun k => if k <? j then mul (g i k) (g i k) else mul (fupd g i j nv i k) (fupd g i j nv i k))).
        2:{ intros k Hk. destruct (Nat.ltb_spec k j); [|reflexivity]. rewrite <- Same; [reflexivity|]. intro E3. injection E3. lia. }
        rewrite (sumn_ext j (fun k => mul (fupd g i j nv i k) (fupd g i j nv j k)) (fun k => mul (g i k) (g j k))).
        2:{ intros k Hk. rewrite <- !Same; [reflexivity| |]; intro E3; injection E3; lia. }
        unfold fupd at 1. rewrite !Nat.eqb_refl. cbn [andb].
        replace (i <? j) with false by (symmetry; apply Nat.ltb_ge; lia). unfold nv.
        destruct (Nat.eqb_spec i j).
        -- subst j. f_equal. f_equal. apply sumn_ext. intros k Hk. destruct (Nat.ltb_spec k i); [reflexivity|lia].
        -- f_equal. rewrite <- Same; [reflexivity|]. intro E3. injection E3. lia.
      * replace (c <? j) with true in Hrc by (symmetry; apply Nat.ltb_lt; lia).
        apply (chol_at_ext a g); [| |exact Hrc].
        -- intros k Hk. apply Same. intro E3. injection E3. lia.
        -- intros Hcr k Hk. apply Same. intro E3. injection E3. lia.
    + exists l'. split; [exact E'|]. exists g'. split; [exact Hl'|].
      intros r c Hr Hc. pose proof (Hg' r c Hr Hc) as Hrc.
      destruct (Nat.ltb_spec r i); cbn [orb] in Hrc.
      { replace (r <? S i) with true by (symmetry; apply Nat.ltb_lt; lia). exact Hrc. }
      destruct (Nat.eqb_spec r i) as [->|]; cbn [andb] in Hrc.
      * replace (i <? S i) with true by (symmetry; apply Nat.ltb_lt; lia). cbn [orb].
        destruct (Nat.ltb_spec c (i + 1)); [exact Hrc|].
        unfold chol_at. replace (i <? c) with true by (symmetry; apply Nat.ltb_lt; lia). exact Hrc.
      * replace (r <? S i) with false by (symmetry; apply Nat.ltb_ge; lia). cbn [orb].
        replace ((r =? S i) && (c <? 0)) with false by (destruct (r =? S i); reflexivity). exact Hrc.
  - rewrite E. cbn [bind]. exists l, g. split; [reflexivity|]. split; [assumption|].
    intros r c Hr Hc. pose proof (Hg r c Hr Hc) as Hrc.
    replace (r <? n) with true in Hrc by (symmetry; apply Nat.ltb_lt; lia). exact Hrc.
Qed.

Lemma dec_cholesky_nonsquare A : rows A <> cols A -> dec_cholesky A = Panic.
Proof. intros H. unfold dec_cholesky. apply Nat.eqb_neq in H. rewrite H. reflexivity. Qed.

Lemma chol_unique n a a' g g' :
  (forall r c, r < n -> c <= r -> a r c = a' r c) ->
  (forall r c, r < n -> c < n -> chol_at a g r c) -> (forall r c, r < n -> c < n -> chol_at a' g' r c) ->
  forall r, r < n -> forall c, c < n -> g r c = g' r c.
Proof.
  intros Ha Hg Hg' r. induction r as [r IHr] using (well_founded_induction lt_wf). intros Hr c.
  induction c as [c IHc] using (well_founded_induction lt_wf). intros Hc.
  rewrite (Hg r c Hr Hc), (Hg' r c Hr Hc).
  destruct (Nat.ltb_spec r c); [reflexivity|]. destruct (Nat.eqb_spec r c).
  - subst c. rewrite Ha by lia. rewrite (sumn_ext r _ (fun k => mul (g' r k) (g' r k))); [reflexivity|].
    intros k Hk. rewrite IHc by lia. reflexivity.
  - rewrite Ha by lia. rewrite (IHr c) by lia. rewrite (sumn_ext c _ (fun k => mul (g' r k) (g' c k))); [reflexivity|].
    intros k Hk. rewrite IHc by lia. rewrite (IHr c) by lia. reflexivity.
Qed.

(** Only the lower triangle is read. *)
Lemma dec_cholesky_lower A A' n a a' : is_mat A n n a -> is_mat A' n n a' ->
  (forall r c, r < n -> c <= r -> a r c = a' r c) -> dec_cholesky A = dec_cholesky A'.
Proof.
  intros HA HA' H.
  destruct (dec_cholesky_spec A n a HA) as (l & g & E & Hl & Hg).
  destruct (dec_cholesky_spec A' n a' HA') as (l' & g' & E' & Hl' & Hg').
  rewrite E, E'. do 2 f_equal. eapply is_mat_unique; [exact Hl|]. eapply is_mat_ext; [|exact Hl'].
  intros i j Hi Hj. symmetry. apply (chol_unique n a a' g g'); auto.
Qed.
End Gen.

Section Real.
Local Open Scope R_scope.

Lemma sum_lower_prod n i j (g : nat -> nat -> R) : (i < n)%nat -> (j <= i)%nat ->
  (forall r c, (r < n)%nat -> (c < n)%nat -> (r < c)%nat -> g r c = 0) ->
  mulf n g (trf g) i j = sumn j (fun k => g i k * g j k) + g i j * g j j.
Proof.
  intros Hi Hj H. unfold mulf, trf. rewrite (sumn_trunc R_RingLaws (S j) n).
  - reflexivity.
  - lia.
  - intros k Hk. simpl. rewrite (H j k) by lia. ring.
Qed.

(** If all diagonal entries of L are positive then L L^T = A on the lower triangle. *)
Lemma chol_prod n a g :
  (forall r c, (r < n)%nat -> (c < n)%nat -> chol_at a g r c) -> (forall i, (i < n)%nat -> 0 < g i i) ->
  forall i j, (i < n)%nat -> (j <= i)%nat -> mulf n g (trf g) i j = a i j.
Proof.
  intros Hg Hp i j Hi Hj.
  assert (Hz : forall r c, (r < n)%nat -> (c < n)%nat -> (r < c)%nat -> g r c = 0).
  { intros r c Hr Hc Hrc. rewrite (Hg r c Hr Hc). replace (r <? c)%nat with true by (symmetry; apply Nat.ltb_lt; lia). reflexivity. }
  rewrite (sum_lower_prod n i j g Hi Hj Hz).
  pose proof (Hg i j Hi ltac:(lia)) as E. unfold chol_at in E.
  replace (i <? j)%nat with false in E by (symmetry; apply Nat.ltb_ge; lia).
  change (@sub R R_ops) with Rminus in E. change (@mul R R_ops) with Rmult in E. change (@div R R_ops) with Rdiv in E.
  change (@tsqrt R R_pops) with sqrt in E.
  destruct (Nat.eqb_spec i j).
  - subst j. set (S := sumn i (fun k => g i k * g i k)) in *. pose proof (Hp i Hi) as Hpi. rewrite E in Hpi.
    assert (Hpos : 0 < a i i - S).
    { destruct (Rlt_dec 0 (a i i - S)); [assumption|]. rewrite sqrt_neg_0 in Hpi by lra. lra. }
    rewrite E. rewrite sqrt_sqrt by lra. ring.
  - pose proof (Hp j ltac:(lia)). rewrite E. field. lra.
Qed.

Lemma upper_solution_exists k (U : nat -> nat -> R) b : (forall i, (i < k)%nat -> U i i <> 0) ->
  exists y, forall r, (r < k)%nat -> sumn k (fun c => if (r <=? c)%nat then U r c * y c else 0) = b r.
Proof.
  intros Hd.
  assert (G : forall d, (d <= k)%nat -> exists y : nat -> R, forall r, (k - d <= r < k)%nat ->
     sumn k (fun c => if (r <=? c)%nat then U r c * y c else 0) = b r).
  { induction d as [|d IH]; intros Hk.
    - exists (fun _ => 0). intros; lia.
    - destruct (IH ltac:(lia)) as (y & Hy). set (q := (k - S d)%nat).
      set (v := (b q - sumn k (fun c => if (q <? c)%nat then U q c * y c else 0)) / U q q).
      exists (fun c => if (c =? q)%nat then v else y c). intros r Hr.
      destruct (Nat.eq_dec r q) as [->|Hne].
      + rewrite (sumn_ext k _ (fun c => (if (q <? c)%nat then U q c * y c else 0) + (if (c =? q)%nat then U q q * v else 0))).
        * etransitivity; [exact (sumn_add R_RingLaws k _ _)|].
          rewrite (sumn_single R_RingLaws k q (fun c => if (c =? q)%nat then U q q * v else 0)).
          -- rewrite Nat.eqb_refl. unfold v. simpl. field. apply Hd. unfold q. lia.
          -- unfold q. lia.
          -- intros c Hc Hcq. destruct (Nat.eqb_spec c q); [congruence|reflexivity].
        * intros c Hc. destruct (Nat.leb_spec q c); destruct (Nat.ltb_spec q c); destruct (Nat.eqb_spec c q); try lia; subst; simpl; ring.
      + rewrite <- (Hy r) by (unfold q in *; lia). apply sumn_ext. intros c Hc.
        destruct (Nat.leb_spec r c); [|reflexivity]. destruct (Nat.eqb_spec c q); [unfold q in *; lia|reflexivity]. }
  destruct (G k (le_n k)) as (y & Hy). exists y. intros r Hr. apply Hy. lia.
Qed.

Lemma sumn_R_mul_l n c (f : nat -> R) : sumn n (fun i => c * f i) = c * sumn n f.
Proof. exact (sumn_mul_l R_RingLaws n c f). Qed.
Lemma sumn_R_mul_r n c (f : nat -> R) : sumn n (fun i => f i * c) = sumn n f * c.
Proof. exact (sumn_mul_r R_RingLaws n c f). Qed.
Lemma sumn_R_add n (f g : nat -> R) : sumn n (fun i => f i + g i) = sumn n f + sumn n g.
Proof. exact (sumn_add R_RingLaws n f g). Qed.
Lemma sumn_R_swap m n (f : nat -> nat -> R) :
  sumn m (fun i => sumn n (fun j => f i j)) = sumn n (fun j => sumn m (fun i => f i j)).
Proof. exact (sumn_swap R_RingLaws m n f). Qed.

(** The quadratic form of L L^T. *)
Lemma quad_gram k (g : nat -> nat -> R) f x : (forall i j, (i < k)%nat -> (j < k)%nat -> f i j = mulf k g (trf g) i j) ->
  quad k f x = sumn k (fun t => sumn k (fun r => g r t * x r) * sumn k (fun r => g r t * x r)).
Proof.
  intros H. unfold quad.
  rewrite (sumn_ext k _ (fun i => sumn k (fun j => sumn k (fun t => x i * (g i t * g j t) * x j)))).
  2:{ intros i Hi. apply sumn_ext. intros j Hj. rewrite H by assumption. unfold mulf, trf.
      rewrite <- sumn_R_mul_l, <- sumn_R_mul_r. reflexivity. }
  rewrite (sumn_ext k _ (fun i => sumn k (fun t => sumn k (fun j => x i * (g i t * g j t) * x j)))).
  2:{ intros i Hi. apply sumn_R_swap. }
  rewrite sumn_R_swap. apply sumn_ext. intros t Ht.
  rewrite <- sumn_R_mul_r. apply sumn_ext. intros i Hi. rewrite <- sumn_R_mul_l. apply sumn_ext. intros j Hj. ring.
Qed.

Lemma quad_border k f x :
  quad (S k) f x = quad k f x + sumn k (fun i => x i * f i k * x k) + sumn k (fun j => x k * f k j * x j) + x k * f k k * x k.
Proof.
  unfold quad. cbn [sumn]. rewrite sumn_R_add. change (@add R R_ops) with Rplus. ring.
Qed.

Lemma quad_trunc k n f x : (k <= n)%nat -> (forall i, (k <= i < n)%nat -> x i = 0) -> quad n f x = quad k f x.
Proof.
  intros Hk H. unfold quad. rewrite (sumn_trunc R_RingLaws k n) by
    (auto; intros i Hi; apply (sumn_zero_ext R_RingLaws); intros j Hj; rewrite H by assumption; simpl; ring).
  apply sumn_ext. intros i Hi. apply (sumn_trunc R_RingLaws k n); auto. intros j Hj. rewrite (H j) by assumption. simpl. ring.
Qed.

(** The pivots of a positive definite matrix are positive. *)
Lemma chol_pivot_pos n a g :
  symmetric n a -> pos_def n a -> (forall r c, (r < n)%nat -> (c < n)%nat -> chol_at a g r c) ->
  forall k, (k < n)%nat -> 0 < g k k.
Proof.
  intros Hsym Hpd Hg k. induction k as [k IH] using (well_founded_induction lt_wf). intros Hk.
  assert (Hz : forall r c, (r < n)%nat -> (c < n)%nat -> (r < c)%nat -> g r c = 0).
  { intros r c Hr Hc Hrc. rewrite (Hg r c Hr Hc). replace (r <? c)%nat with true by (symmetry; apply Nat.ltb_lt; lia). reflexivity. }
  assert (Hgk : forall r c, (r < k)%nat -> (c < k)%nat -> chol_at a g r c) by (intros; apply Hg; lia).
  assert (Hpk : forall i, (i < k)%nat -> 0 < g i i) by (intros; apply IH; lia).
  (* leading block *)
  assert (Hblock : forall i j, (i < k)%nat -> (j < k)%nat -> a i j = mulf k g (trf g) i j).
  { intros i j Hi Hj. destruct (Nat.le_gt_cases j i).
    - symmetry. apply chol_prod; auto.
    - rewrite (Hsym i j) by lia. unfold trf at 1. rewrite <- (chol_prod k a g Hgk Hpk j i) by lia.
      unfold mulf, trf. apply sumn_ext. intros t Ht. simpl. ring. }
  assert (Hrow : forall j, (j < k)%nat -> a k j = sumn k (fun t => g k t * g j t)).
  { intros j Hj. pose proof (Hg k j Hk ltac:(lia)) as E. unfold chol_at in E.
    replace (k <? j)%nat with false in E by (symmetry; apply Nat.ltb_ge; lia).
    destruct (Nat.eqb_spec k j); [lia|].
    rewrite (sumn_trunc R_RingLaws (S j) k); [|lia|].
    2:{ intros t Ht. rewrite (Hz j t) by lia. simpl. ring. }
    cbn [sumn]. change (@add R R_ops) with Rplus. change (@mul R R_ops) with Rmult in E.
    change (@div R R_ops) with Rdiv in E. change (@sub R R_ops) with Rminus in E.
    rewrite E. pose proof (Hpk j Hj). field. lra. }
  destruct (upper_solution_exists k (fun t r => g r t) (fun t => g k t)) as (y & Hy).
  { intros i Hi. pose proof (Hpk i Hi). lra. }
  assert (Hy' : forall t, (t < k)%nat -> sumn k (fun r => g r t * y r) = g k t).
  { intros t Ht. rewrite <- (Hy t Ht). apply sumn_ext. intros r Hr. destruct (Nat.leb_spec t r); [reflexivity|].
    rewrite (Hz r t) by lia. simpl. ring. }
  set (x := fun i => if (i <? k)%nat then - y i else if (i =? k)%nat then 1 else 0).
  assert (Hq : 0 < quad n a x).
  { apply Hpd. exists k. split; [assumption|]. unfold x. rewrite Nat.ltb_irrefl, Nat.eqb_refl. lra. }
  rewrite (quad_trunc (S k) n) in Hq; [|lia|].
  2:{ intros i Hi. unfold x. replace (i <? k)%nat with false by (symmetry; apply Nat.ltb_ge; lia).
      destruct (Nat.eqb_spec i k); [lia|reflexivity]. }
  rewrite quad_border in Hq.
  assert (Exk : x k = 1) by (unfold x; rewrite Nat.ltb_irrefl, Nat.eqb_refl; reflexivity).
  assert (Exi : forall i, (i < k)%nat -> x i = - y i).
  { intros i Hi. unfold x. replace (i <? k)%nat with true by (symmetry; apply Nat.ltb_lt; lia). reflexivity. }
  rewrite (quad_gram k g a x Hblock) in Hq.
  assert (E1 : forall t, (t < k)%nat -> sumn k (fun r => g r t * x r) = - g k t).
  { intros t Ht. rewrite <- (Hy' t Ht). rewrite (sumn_ext k _ (fun r => -1 * (g r t * y r))).
    - rewrite sumn_R_mul_l. ring.
    - intros r Hr. rewrite Exi by assumption. ring. }
  set (N := sumn k (fun t => g k t * g k t)).
  assert (E2 : sumn k (fun t => sumn k (fun r => g r t * x r) * sumn k (fun r => g r t * x r)) = N).
  { apply sumn_ext. intros t Ht. rewrite E1 by assumption. ring. }
  assert (E3 : sumn k (fun j => x k * a k j * x j) = - N).
  { rewrite (sumn_ext k _ (fun j => sumn k (fun t => g k t * (g j t * x j)))).
    - rewrite sumn_R_swap. rewrite (sumn_ext k _ (fun t => -1 * (g k t * g k t))).
      + rewrite sumn_R_mul_l. unfold N. ring.
      + intros t Ht. rewrite sumn_R_mul_l, E1 by assumption. ring.
    - intros j Hj. rewrite Exk, Hrow by assumption. rewrite <- (sumn_R_mul_l k 1), <- sumn_R_mul_r. apply sumn_ext. intros t Ht. ring. }
  assert (E4 : sumn k (fun i => x i * a i k * x k) = - N).
  { rewrite <- E3. apply sumn_ext. intros i Hi. rewrite (Hsym i k) by lia. unfold trf. ring. }
  rewrite E2, E3, E4, Exk in Hq.
  pose proof (Hg k k Hk Hk) as E. unfold chol_at in E. rewrite Nat.ltb_irrefl, Nat.eqb_refl in E.
  change (@sub R R_ops) with Rminus in E. change (@mul R R_ops) with Rmult in E. change (@tsqrt R R_pops) with sqrt in E.
  fold N in E. rewrite E. apply sqrt_lt_R0. lra.
Qed.

(** A = L L^T with L lower triangular and non-zero diagonal is positive definite. *)
Lemma gram_pos_def n (a g : nat -> nat -> R) : lower n n g -> (forall i, (i < n)%nat -> g i i <> 0) ->
  feq n n (mulf n g (trf g)) a -> pos_def n a.
Proof.
  intros Hl Hd H x (i0 & Hi0 & Hx0).
  rewrite (quad_gram n g a x) by (intros; symmetry; apply H; assumption).
  assert (Hpos : forall t, (t < n)%nat -> 0 <= sumn n (fun r => g r t * x r) * sumn n (fun r => g r t * x r)) by (intros; apply Rle_0_sqr).
  destruct (Rtotal_order 0 (sumn n (fun t => sumn n (fun r => g r t * x r) * sumn n (fun r => g r t * x r)))) as [Hlt|[He|Hgt]]; [assumption| |].
  - exfalso. apply Hx0.
    assert (Z : forall t, (t < n)%nat -> sumn n (fun r => g r t * x r) = 0).
    { intros t Ht. apply Rsqr_0_uniq. exact (sumn_R_zero n _ Hpos (eq_sym He) t Ht). }
    apply (upper_sys_unique R_FieldLaws n (fun t r => g r t) x (fun _ => 0) (fun _ => 0)); auto.
    + intros k Hk. unfold upper_sys. transitivity (sumn n (fun r => g r k * x r)); [|apply Z; assumption].
      apply sumn_ext. intros r Hr. destruct (Nat.leb_spec k r); [reflexivity|]. rewrite (Hl r k) by lia. simpl. ring.
    + intros k Hk. unfold upper_sys. apply (sumn_zero_ext R_RingLaws). intros r Hr. destruct (k <=? r)%nat; simpl; ring.
  - exfalso. pose proof (sumn_R_nonneg n _ Hpos). simpl in *. lra.
Qed.

Lemma dec_cholesky_ok A n a : is_mat A n n a -> symmetric n a ->
  (pos_def n a \/ (forall l k x, dec_cholesky A = Ret (Ok l) -> (k < n)%nat -> mget l k k = Ret x -> 0 < x)) ->
  exists l g, dec_cholesky A = Ret (Ok l) /\ is_mat l n n g /\ lower n n g /\
    (forall i, (i < n)%nat -> 0 < g i i) /\ feq n n (mulf n g (trf g)) a.
Proof.
  intros HA Hs H. destruct (dec_cholesky_spec A n a HA) as (l & g & E & Hl & Hg).
  exists l, g. split; [assumption|]. split; [assumption|].
  assert (Hp : forall k, (k < n)%nat -> 0 < g k k).
  { destruct H as [H|H]; [apply (chol_pivot_pos n a g Hs H Hg)|].
    intros k Hk. apply (H l k (g k k) E Hk). apply (is_mat_get _ _ _ _ _ _ Hl); assumption. }
  split; [|split; [assumption|]].
  - intros i j Hi Hj Hij. rewrite (Hg i j Hi Hj). replace (i <? j)%nat with true by (symmetry; apply Nat.ltb_lt; lia). reflexivity.
  - intros i j Hi Hj. destruct (Nat.le_gt_cases j i).
    + apply chol_prod; auto.
    + rewrite (Hs i j) by lia. unfold trf at 2. rewrite <- (chol_prod n a g Hg Hp j i) by lia.
      unfold mulf, trf. apply sumn_ext. intros t Ht. simpl. ring.
Qed.

(** The factor is unique. *)
Lemma chol_factor_unique n a g g' :
  feq n n (mulf n g (trf g)) a -> lower n n g -> (forall i, (i < n)%nat -> 0 < g i i) ->
  feq n n (mulf n g' (trf g')) a -> lower n n g' -> (forall i, (i < n)%nat -> 0 < g' i i) ->
  feq n n g g'.
Proof.
  assert (C : forall g, feq n n (mulf n g (trf g)) a -> lower n n g -> (forall i, (i < n)%nat -> 0 < g i i) ->
     forall r c, (r < n)%nat -> (c < n)%nat -> chol_at a g r c).
  { intros h H Hl Hp r c Hr Hc. unfold chol_at. destruct (Nat.ltb_spec r c); [apply Hl; assumption|].
    pose proof (H r c Hr Hc) as E. rewrite (sum_lower_prod n r c h Hr) in E by (auto; intros; apply Hl; assumption).
    change (@sub R R_ops) with Rminus. change (@mul R R_ops) with Rmult. change (@div R R_ops) with Rdiv.
    change (@tsqrt R R_pops) with sqrt.
    destruct (Nat.eqb_spec r c).
    - subst c. rewrite <- E. replace (sumn r (fun k => h r k * h r k) + h r r * h r r - sumn r (fun k => h r k * h r k)) with (h r r * h r r) by ring.
      rewrite sqrt_square; [reflexivity|]. left. auto.
    - rewrite <- E. pose proof (Hp c Hc). field. lra. }
  intros H1 L1 P1 H2 L2 P2 i j Hi Hj. apply (chol_unique n a a g g'); auto.
Qed.
End Real.
