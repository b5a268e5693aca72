(** Consequences of the LU lemmas in the form used by the property theorems. *)
From Coq Require Import Arith List Bool Lia Ring Reals Lra.
From Verif Require Import Outcome Scalar Matrix_model Transpose_model Vector_model LU_model Matrix_spec LU_spec
  Det_spec Matrix_proofs Transpose_proofs Vector_proofs Sums MatProps_proofs VecProps_proofs LU_proofs Subst_proofs Det_proofs.
Import ListNotations.
Local Open Scope nat_scope.

Section Gen.
Context {T : Type} {O : Ops T}.

Lemma dec_lu_shape A n f : is_mat A n n f ->
  exists d l u s, dec_lu A = Ret (Ok d) /\
    is_mat (lu_l d) n n l /\ unit_lower n l /\
    is_mat (lu_u d) n n u /\ upper n n u /\
    is_mat (lu_p d) n n (perm_fun s) /\ perm_on n s.
Proof.
  intros HA. destruct (dec_lu_total A n f HA) as (Lm & U & P & a & s & E & HL & HU & HP & Hs).
  exists (mkLU Lm U P), (lpart a), (upart a), s. cbn [lu_l lu_u lu_p].
  split; [assumption|]. split; [assumption|]. split; [apply lpart_unit|].
  split; [assumption|]. split; [apply upart_upper|]. split; assumption.
Qed.

Lemma dec_lu_never_err A : dec_lu A <> Ret Err.
Proof.
  unfold dec_lu. destruct (rassert _); [|discriminate]. cbn [bind].
  destruct (mone (rows A)); [|discriminate]. cbn [bind].
  destruct (mone (cols A)); [|discriminate]. cbn [bind].
  destruct (for_loop _ _ _ _); [|discriminate]. cbn [bind].
  repeat match goal with |- (let! _ := ?e in _) <> _ => destruct e; [|discriminate]; cbn [bind] end.
  discriminate.
Qed.
End Gen.

Section Laws.
Context {T : Type} {O : Ops T} (F : FieldLaws O).
Let L := fl_ring O F.
Add Ring TrLP : (rl_ring O L).

Lemma dec_lu_identity A n f : is_mat A n n f ->
  exists d l u s, dec_lu A = Ret (Ok d) /\
    is_mat (lu_l d) n n l /\ is_mat (lu_u d) n n u /\ is_mat (lu_p d) n n (perm_fun s) /\ perm_on n s /\
    forall r c, r < n -> c < n ->
      f (s r) c = add (mulf n l u r c) (if (c <? r) && eqb (u c c) zero then l r c else zero).
Proof.
  intros HA. destruct (dec_lu_spec F A n f HA) as (Lm & U & P & a & s & E & HL & HU & HP & Hs & He).
  exists (mkLU Lm U P), (lpart a), (upart a), s. cbn [lu_l lu_u lu_p]. conj_auto.
  intros r c Hr Hc. rewrite He by assumption. f_equal. unfold lu_err. rewrite upart_diag.
  unfold lpart. destruct (c <? r); reflexivity.
Qed.

Lemma dec_lu_iff A n f d l u : is_mat A n n f -> dec_lu A = Ret (Ok d) ->
  is_mat (lu_l d) n n l -> is_mat (lu_u d) n n u ->
  ((exists PA, mmul (lu_p d) A = Ret PA /\ mmul (lu_l d) (lu_u d) = Ret PA) <->
   (forall k, k < n -> u k k <> zero \/ forall r, k < r < n -> l r k = zero)).
Proof.
  intros HA Hd Hl Hu. destruct (dec_lu_spec F A n f HA) as (Lm & U & P & a & s & E & HL & HU & HP & Hs & He).
  rewrite Hd in E. injection E as ->. cbn [lu_l lu_u lu_p] in *.
  assert (El : forall r c, r < n -> c < n -> l r c = lpart a r c) by (intros; apply (is_mat_entry_unique _ _ _ _ _ _ _ Hl HL); assumption).
  assert (Eu : forall r c, r < n -> c < n -> u r c = upart a r c) by (intros; apply (is_mat_entry_unique _ _ _ _ _ _ _ Hu HU); assumption).
  destruct (mmul_spec P A n n n _ _ HP HA) as (C1 & F1 & G1).
  destruct (mmul_spec Lm U n n n _ _ HL HU) as (C2 & F2 & G2).
  split.
  - intros (PA & E1 & E2) k Hk. rewrite F1 in E1. rewrite F2 in E2. injection E1 as <-. injection E2 as ->.
    destruct (eqb (u k k) zero) eqn:Ez.
    + right. intros r Hr. pose proof (is_mat_entry_unique _ _ _ _ _ r k G1 G2 ltac:(lia) Hk) as Erk.
      rewrite (perm_mulf F n s f r k Hs) in Erk by lia. rewrite He in Erk by lia. unfold lu_err in Erk.
      rewrite Eu, upart_diag in Ez by lia. rewrite Ez in Erk.
      replace (k <? r) with true in Erk by (symmetry; apply Nat.ltb_lt; lia). cbn [andb] in Erk.
      rewrite El by lia. unfold lpart. replace (k <? r) with true by (symmetry; apply Nat.ltb_lt; lia).
      set (x := mulf n (lpart a) (upart a) r k) in *.
      transitivity (sub (add x (a r k)) x); [ring|]. rewrite Erk. ring.
    + left. intro Hz. apply (fl_eq O F) in Hz. congruence.
  - intros H. exists C1. split; [assumption|]. rewrite F2. f_equal.
    eapply is_mat_unique; [exact G2|]. eapply is_mat_ext; [|exact G1].
    intros r c Hr Hc. rewrite (perm_mulf F n s f r c Hs) by lia. rewrite He by lia.
    rewrite (lu_err_zero F n a); [ring| |assumption|assumption].
    intros k Hk. destruct (H k Hk) as [Hz|Hz].
    + left. rewrite Eu, upart_diag in Hz by lia. assumption.
    + right. intros q Hq. specialize (Hz q Hq). rewrite El in Hz by lia. unfold lpart in Hz.
      replace (k <? q) with true in Hz by (symmetry; apply Nat.ltb_lt; lia). assumption.
Qed.

Lemma dec_lu_regular A n f d : is_mat A n n f -> dec_lu A = Ret (Ok d) ->
  (forall k x, k < n -> mget (lu_u d) k k = Ret x -> x <> zero) ->
  exists PA, mmul (lu_p d) A = Ret PA /\ mmul (lu_l d) (lu_u d) = Ret PA.
Proof.
  intros HA Hd Hz. destruct (dec_lu_total A n f HA) as (Lm & U & P & a & s & E & HL & HU & HP & Hs).
  rewrite Hd in E. injection E as ->. cbn [lu_u] in Hz.
  apply (proj2 (dec_lu_iff A n f _ _ _ HA Hd HL HU)). intros k Hk. left. apply (Hz k); [assumption|].
  apply (is_mat_get _ _ _ _ _ _ HU); assumption.
Qed.

(** Vector form of solve. *)
Lemma solve_vec_api A n f v b : is_mat A n n f -> is_col v n b -> lu_regular A n ->
  exists w, solve_vec A v = Ret (Ok w) /\ mmul_vec A w = Ret v /\ dim w = (n, 1) /\ wf w /\
    (forall w', dim w' = (n, 1) -> wf w' -> mmul_vec A w' = Ret v -> w' = w).
Proof.
  intros HA Hv HR. destruct (solve_vec_ok F A n f v b HA Hv HR) as (w & x & E & Hw & Hs & Hu).
  exists w. split; [assumption|].
  destruct (mmul_vec_spec A n n f w x HA Hw) as (v' & E' & Hv').
  split.
  { rewrite E'. f_equal. eapply is_mat_unique; [|exact Hv]. eapply col_ext; [|exact Hv']. exact Hs. }
  destruct (is_mat_dim _ _ _ _ Hw) as [R C]. split; [unfold dim; rewrite R, C; reflexivity|].
  split; [exact (is_mat_wf _ _ _ _ Hw)|].
  intros w' Hd Hwf' E2.
  assert (Hw' : exists y, is_col w' n y).
  { injection Hd as Hr Hc. pose proof (wf_is_mat zero w' Hwf') as Hg. rewrite Hr, Hc in Hg.
    match type of Hg with is_mat _ _ _ ?h => set (g := h) in Hg; clearbody g end. exists (fun i => g i 0).
    eapply is_mat_ext; [|exact Hg]. intros i j Hi Hj. replace j with 0 by lia. reflexivity. }
  destruct Hw' as (y & Hy). destruct (mmul_vec_spec A n n f w' y HA Hy) as (v2 & E3 & Hv2).
  rewrite E2 in E3. injection E3 as <-.
  eapply is_mat_unique; [exact Hy|]. eapply col_ext; [|exact Hw]. intros i Hi. symmetry. apply Hu; [|assumption].
  intros r Hr. exact (is_mat_entry_unique _ _ _ _ _ r 0 Hv2 Hv Hr ltac:(lia)).
Qed.

Lemma solve_mat_api A n f B p b : is_mat A n n f -> is_mat B n p b -> lu_regular A n ->
  exists X, solve_mat A B = Ret (Ok X) /\ mmul A X = Ret B /\ dim X = (n, p) /\ wf X /\
    (forall X', dim X' = (n, p) -> wf X' -> mmul A X' = Ret B -> X' = X).
Proof.
  intros HA Hv HR. destruct (solve_mat_ok F A n f B p b HA Hv HR) as (w & x & E & Hw & Hs & Hu).
  exists w. split; [assumption|].
  destruct (mmul_spec A w n n p f x HA Hw) as (v' & E' & Hv').
  split.
  { rewrite E'. f_equal. eapply is_mat_unique; [|exact Hv]. eapply is_mat_ext; [|exact Hv']. exact Hs. }
  destruct (is_mat_dim _ _ _ _ Hw) as [R C]. split; [unfold dim; rewrite R, C; reflexivity|].
  split; [exact (is_mat_wf _ _ _ _ Hw)|].
  intros w' Hd Hwf' E2.
  injection Hd as Hr Hc. pose proof (wf_is_mat zero w' Hwf') as Hy. rewrite Hr, Hc in Hy.
  match type of Hy with is_mat _ _ _ ?g => set (y := g) in Hy; clearbody y end.
  destruct (mmul_spec A w' n n p f y HA Hy) as (v2 & E3 & Hv2).
  rewrite E2 in E3. injection E3 as <-.
  eapply is_mat_unique; [exact Hy|]. eapply is_mat_ext; [|exact Hw]. intros i j Hi Hj. symmetry. apply Hu; [|assumption|assumption].
  intros r c Hr' Hc'. exact (is_mat_entry_unique _ _ _ _ _ r c Hv2 Hv Hr' Hc').
Qed.

(** Triangular substitution in terms of triangular coefficient matrices. *)
Lemma lower_sys_mul n Lf x b r : lower n n Lf -> r < n ->
  (lower_sys n Lf x b r <-> mvf n Lf x r = b r).
Proof.
  intros Hl Hr. unfold lower_sys, mvf. rewrite (sumn_ext n (fun l => if l <=? r then _ else _) (fun c => mul (Lf r c) (x c))); [reflexivity|].
  intros l Hln. destruct (Nat.leb_spec l r); [reflexivity|]. rewrite Hl by lia. ring.
Qed.
Lemma upper_sys_mul n Uf x b r : upper n n Uf -> r < n ->
  (upper_sys n Uf x b r <-> mvf n Uf x r = b r).
Proof.
  intros Hl Hr. unfold upper_sys, mvf. rewrite (sumn_ext n (fun l => if r <=? l then _ else _) (fun c => mul (Uf r c) (x c))); [reflexivity|].
  intros l Hln. destruct (Nat.leb_spec r l); [reflexivity|]. rewrite Hl by lia. ring.
Qed.

Lemma subst_forward_vec_api M n Lf v b : is_mat M n n Lf -> is_col v n b -> lower n n Lf ->
  (forall k, k < n -> Lf k k <> zero) ->
  exists w, subst_forward_vec M v = Ret w /\ mmul_vec M w = Ret v.
Proof.
  intros HM Hv Hl Hz. destruct (subst_forward_vec_spec M n Lf v b HM Hv) as (w & x & E & Hw & S).
  exists w. split; [assumption|]. destruct (mmul_vec_spec M n n Lf w x HM Hw) as (v' & E' & Hv').
  rewrite E'. f_equal. eapply is_mat_unique; [|exact Hv]. eapply col_ext; [|exact Hv'].
  intros r Hr. apply (proj1 (lower_sys_mul n Lf x b r Hl Hr)). apply fwd_sol_eq; auto.
Qed.
Lemma subst_backward_vec_api M n Uf v b : is_mat M n n Uf -> is_col v n b -> upper n n Uf ->
  (forall k, k < n -> Uf k k <> zero) ->
  exists w, subst_backward_vec M v = Ret w /\ mmul_vec M w = Ret v.
Proof.
  intros HM Hv Hl Hz. destruct (subst_backward_vec_spec M n Uf v b HM Hv) as (w & x & E & Hw & S).
  exists w. split; [assumption|]. destruct (mmul_vec_spec M n n Uf w x HM Hw) as (v' & E' & Hv').
  rewrite E'. f_equal. eapply is_mat_unique; [|exact Hv]. eapply col_ext; [|exact Hv'].
  intros r Hr. apply (proj1 (upper_sys_mul n Uf x b r Hl Hr)). apply bwd_sol_eq; auto.
Qed.
Lemma subst_forward_mat_api M n Lf B p b : is_mat M n n Lf -> is_mat B n p b -> lower n n Lf ->
  (forall k, k < n -> Lf k k <> zero) ->
  exists X, subst_forward_mat M B = Ret X /\ mmul M X = Ret B.
Proof.
  intros HM Hv Hl Hz. destruct (subst_forward_mat_spec M n Lf B p b HM Hv) as (w & x & E & Hw & S).
  exists w. split; [assumption|]. destruct (mmul_spec M w n n p Lf x HM Hw) as (v' & E' & Hv').
  rewrite E'. f_equal. eapply is_mat_unique; [|exact Hv]. eapply is_mat_ext; [|exact Hv'].
  intros r c Hr Hc. apply (proj1 (lower_sys_mul n Lf (fun l => x l c) (fun l => b l c) r Hl Hr)).
  apply (fwdm_sol_eq F n p Lf b); auto.
Qed.
Lemma subst_backward_mat_api M n Uf B p b : is_mat M n n Uf -> is_mat B n p b -> upper n n Uf ->
  (forall k, k < n -> Uf k k <> zero) ->
  exists X, subst_backward_mat M B = Ret X /\ mmul M X = Ret B.
Proof.
  intros HM Hv Hl Hz. destruct (subst_backward_mat_spec M n Uf B p b HM Hv) as (w & x & E & Hw & S).
  exists w. split; [assumption|]. destruct (mmul_spec M w n n p Uf x HM Hw) as (v' & E' & Hv').
  rewrite E'. f_equal. eapply is_mat_unique; [|exact Hv]. eapply is_mat_ext; [|exact Hv'].
  intros r c Hr Hc. apply (proj1 (upper_sys_mul n Uf (fun l => x l c) (fun l => b l c) r Hl Hr)).
  apply (bwdm_sol_eq F n p Uf b); auto.
Qed.
End Laws.

(** ** Real matrices: pivoting and diagonal dominance *)
Section Real.
Local Open Scope R_scope.

Lemma sumn_R_le n (f g : nat -> R) : (forall i, (i < n)%nat -> f i <= g i) -> sumn n f <= sumn n g.
Proof. induction n; intros H; simpl; [lra|]. pose proof (H n ltac:(lia)). assert (sumn n f <= sumn n g) by auto. simpl in *. lra. Qed.

Lemma dec_lu_pivot A n f : is_mat A n n f ->
  exists d l u, dec_lu A = Ret (Ok d) /\ is_mat (lu_l d) n n l /\ is_mat (lu_u d) n n u /\
    forall i r, (i < r)%nat -> (r < n)%nat ->
      (0 < u i i -> l r i <= 1) /\ (u i i < 0 -> 1 <= l r i) /\ (u i i = 0 -> l r i <= 0).
Proof.
  intros HA.
  destruct (dec_lu_gen (fun i a _ => forall c r, (c < i)%nat -> (c < r < n)%nat ->
     (0 < a c c -> a r c <= 1) /\ (a c c < 0 -> 1 <= a r c) /\ (a c c = 0 -> a r c <= 0)) A n f HA)
   as (Lm & U & P & a & s & E & HL & HU & HP & Hs & HI).
  - intros; lia.
  - intros i a s k Hk Ek Hs HI c r Hc Hr.
    assert (Hsw : forall q, swapf i k a q c = a (tswap i k q) c) by (intros; apply swapf_tswap).
    destruct (Nat.eq_dec c i) as [->|Hne].
    + assert (E1 : elimf i (swapf i k a) i i = a k i).
      { unfold elimf. rewrite Nat.leb_refl. rewrite Hsw. unfold tswap. rewrite Nat.eqb_refl. reflexivity. }
      assert (E2 : elimf i (swapf i k a) r i = lu_fac (swapf i k a) i r).
      { unfold elimf. bcase. }
      rewrite E1, E2. unfold lu_fac.
      replace (swapf i k a i i) with (a k i) by (rewrite Hsw; unfold tswap; rewrite Nat.eqb_refl; reflexivity).
      rewrite Hsw.
      assert (Hmax : a (tswap i k r) i <= a k i).
      { pose proof (pick_max R_OrdLaws (fun r => a r i) i (n - S i) (tswap i k r)) as Hm. rewrite <- Ek in Hm.
        apply R_ltb_false. apply Hm. unfold tswap. bcase. }
      change (@eqb R R_ops) with R_eqb. change (@zero R R_ops) with 0. change (@div R R_ops) with Rdiv.
      set (x := a (tswap i k r) i) in *. set (y := a k i) in *.
      destruct (R_eqb y 0) eqn:Ey; cbn [negb].
      * apply R_eqb_true in Ey. repeat split; intros; lra.
      * apply R_eqb_false in Ey.
        repeat split; intros.
        -- apply (Rmult_le_reg_r y); [lra|]. unfold Rdiv. rewrite Rmult_assoc, Rinv_l by lra. lra.
        -- assert (Hx : x / y * y = x) by (field; lra). nra.
        -- lra.
    + assert (E1 : elimf i (swapf i k a) c c = a c c).
      { unfold elimf. replace (c <=? i)%nat with true by (symmetry; apply Nat.leb_le; lia). rewrite Hsw. f_equal. unfold tswap. bcase. }
      assert (E2 : elimf i (swapf i k a) r c = a (tswap i k r) c).
      { rewrite <- Hsw. unfold elimf. destruct (Nat.leb_spec r i); [reflexivity|]. replace (c <? i)%nat with true by (symmetry; apply Nat.ltb_lt; lia). reflexivity. }
      rewrite E1, E2. apply HI; [lia|]. unfold tswap. bcase.
  - exists (mkLU Lm U P), (lpart a), (upart a). cbn [lu_l lu_u]. conj_auto.
    intros i r Hi Hr. unfold lpart, upart. rewrite Nat.leb_refl.
    replace (i <? r)%nat with true by (symmetry; apply Nat.ltb_lt; lia). apply HI; lia.
Qed.

(** Sum of |a r c| over lo <= r < n, r <> c. *)
Definition offcol (n lo : nat) (a : nat -> nat -> R) (c : nat) : R :=
  sumn n (fun r => if (lo <=? r)%nat && negb (r =? c)%nat then Rabs (a r c) else 0).

Lemma offcol_split n i a c : (i < n)%nat -> (i < c)%nat -> offcol n i a c = Rabs (a i c) + offcol n (S i) a c.
Proof.
  intros Hi Hc. unfold offcol.
  rewrite (sumn_ext n _ (fun r => (if (r =? i)%nat then Rabs (a r c) else 0) + (if (S i <=? r)%nat && negb (r =? c)%nat then Rabs (a r c) else 0))).
  - etransitivity; [exact (sumn_add R_RingLaws n (fun r => if (r =? i)%nat then Rabs (a r c) else 0) (fun r => if (S i <=? r)%nat && negb (r =? c)%nat then Rabs (a r c) else 0))|].
    f_equal. rewrite (sumn_single R_RingLaws n i); [rewrite Nat.eqb_refl; reflexivity|assumption|].
    intros j Hj Hne. destruct (Nat.eqb_spec j i); [congruence|reflexivity].
  - intros r Hr. destruct (Nat.eqb_spec r i) as [->|Hne].
    + rewrite Nat.leb_refl. destruct (Nat.eqb_spec i c); [lia|].
      replace (S i <=? i)%nat with false by (symmetry; apply Nat.leb_gt; lia). cbn [andb negb]. lra.
    + replace (S i <=? r)%nat with (i <=? r)%nat; [lra|].
      destruct (Nat.leb_spec i r); destruct (Nat.leb_spec (S i) r); auto; lia.
Qed.

Lemma offcol_term n lo a c r : (r < n)%nat -> (lo <= r)%nat -> r <> c -> Rabs (a r c) <= offcol n lo a c.
Proof.
  intros Hr Hlo Hne. unfold offcol.
  assert (E : Rabs (a r c) = sumn n (fun q => if (q =? r)%nat then Rabs (a q c) else 0)).
  { rewrite (sumn_single R_RingLaws n r); [rewrite Nat.eqb_refl; reflexivity|assumption|].
    intros q Hq Hqr. destruct (Nat.eqb_spec q r); [congruence|reflexivity]. }
  rewrite E. apply sumn_R_le. intros q Hq. destruct (Nat.eqb_spec q r) as [->|].
  - replace (lo <=? r)%nat with true by (symmetry; apply Nat.leb_le; lia).
    destruct (Nat.eqb_spec r c); [congruence|]. simpl. lra.
  - destruct (_ && _); [apply Rabs_pos | simpl; lra].
Qed.

Lemma offcol_pair n lo a c r : (r < n)%nat -> (lo <= r)%nat -> r <> c ->
  sumn n (fun q => if (lo <=? q)%nat && negb (q =? r)%nat then if (q =? c)%nat then 0 else Rabs (a q c) else 0) = offcol n lo a c - Rabs (a r c).
Proof.
  intros Hr Hlo Hne. unfold offcol.
  assert (E : Rabs (a r c) = sumn n (fun q => if (q =? r)%nat then Rabs (a q c) else 0)).
  { rewrite (sumn_single R_RingLaws n r); [rewrite Nat.eqb_refl; reflexivity|assumption|].
    intros q Hq Hqr. destruct (Nat.eqb_spec q r); [congruence|reflexivity]. }
  rewrite E. etransitivity; [|exact (sumn_sub R_RingLaws n _ _)]. apply sumn_ext. intros q Hq.
  destruct (Nat.eqb_spec q r) as [->|]; simpl.
  - replace (lo <=? r)%nat with true by (symmetry; apply Nat.leb_le; lia).
    destruct (Nat.eqb_spec r c); [congruence|]. simpl. lra.
  - rewrite andb_true_r. destruct (lo <=? q)%nat; destruct (q =? c)%nat; simpl; lra.
Qed.

Lemma dd_step n i a : (i < n)%nat ->
  (forall c, (i <= c < n)%nat -> offcol n i a c < a c c) ->
  forall c, (i < c < n)%nat -> offcol n (S i) (elimf i a) c < elimf i a c c.
Proof.
  intros Hi H c Hc.
  pose proof (H i ltac:(lia)) as Hii. pose proof (H c ltac:(lia)) as Hcc.
  assert (P0 : 0 < a i i).
  { eapply Rle_lt_trans; [|exact Hii]. unfold offcol. apply sumn_R_nonneg. intros q Hq. destruct (_ && _); [apply Rabs_pos|simpl; lra]. }
  set (p := a i i) in *.
  assert (Ef : forall r, (i < r)%nat -> elimf i a r c = a r c - a r i / p * a i c).
  { intros r Hr. unfold elimf. replace (r <=? i)%nat with false by (symmetry; apply Nat.leb_gt; lia).
    replace (c <? i)%nat with false by (symmetry; apply Nat.ltb_ge; lia).
    destruct (Nat.eqb_spec c i); [lia|]. unfold lu_fac. change (@eqb R R_ops) with R_eqb.
    replace (R_eqb (a i i) zero) with false; [reflexivity|]. symmetry. apply R_eqb_false. simpl. fold p. lra. }
  rewrite (Ef c) by lia.
  assert (B : offcol n (S i) (elimf i a) c <= offcol n (S i) a c + Rabs (a i c) / p * (offcol n (S i) a i - Rabs (a c i))).
  { rewrite <- (offcol_pair n (S i) a i c) by lia. unfold offcol.
    match goal with |- _ <= sumn n ?F + ?k * sumn n ?G =>
      assert (EE : sumn n F + k * sumn n G = sumn n (fun q => F q + k * G q)) end.
    { symmetry. etransitivity; [exact (sumn_add R_RingLaws n _ _)|]. simpl. f_equal. exact (sumn_mul_l R_RingLaws n _ _). }
    rewrite EE. apply sumn_R_le. intros q Hq. destruct (Nat.leb_spec (S i) q); cbn [andb]; [|simpl; lra].
    destruct (Nat.eqb_spec q c); cbn [negb]; [simpl; lra|].
    destruct (Nat.eqb_spec q i); [lia|].
    rewrite (Ef q) by lia. eapply Rle_trans; [apply Rabs_triang|]. rewrite Rabs_Ropp, Rabs_mult. unfold Rdiv.
    rewrite Rabs_mult. rewrite (Rabs_right (/ p)) by (left; apply Rinv_0_lt_compat; lra). simpl. lra. }
  rewrite (offcol_split n i a c) in Hcc by lia.
  assert (Ei : offcol n (S i) a i = offcol n i a i).
  { unfold offcol. apply sumn_ext. intros q Hq. destruct (Nat.leb_spec (S i) q); destruct (Nat.leb_spec i q); destruct (Nat.eqb_spec q i); try reflexivity; lia. }
  rewrite Ei in B.
  set (o1 := offcol n (S i) a c) in *. set (o2 := offcol n i a i) in *.
  set (x := Rabs (a i c)) in *. set (y := Rabs (a c i)) in *.
  assert (Hx : 0 <= x) by apply Rabs_pos.
  assert (Hxy : a c i / p * a i c <= x * y / p).
  { assert (Hab : a c i * a i c <= x * y).
    { unfold x, y. rewrite <- Rabs_mult. rewrite Rmult_comm. apply Rle_abs. }
    unfold Rdiv. replace (a c i * / p * a i c) with (a c i * a i c * / p) by ring.
    apply Rmult_le_compat_r; [left; apply Rinv_0_lt_compat; lra|exact Hab]. }
  assert (Hb : x / p * (o2 - y) <= x - x * y / p).
  { replace (x - x * y / p) with (x / p * (p - y)) by (field; lra).
    apply Rmult_le_compat_l; [|lra]. apply Rmult_le_pos; [assumption|]. left. apply Rinv_0_lt_compat. lra. }
  lra.
Qed.

(** Strict column diagonal dominance with positive diagonal. *)
Lemma dec_lu_dd A n f : is_mat A n n f ->
  (forall c, (c < n)%nat -> sumn n (fun r => if (r =? c)%nat then 0 else Rabs (f r c)) < f c c) ->
  exists d u, dec_lu A = Ret (Ok d) /\ is_mat (lu_u d) n n u /\ is_mat (lu_p d) n n delta /\
    (forall k, (k < n)%nat -> 0 < u k k).
Proof.
  intros HA Hdd.
  destruct (dec_lu_gen (fun i a s => (forall r, (r < n)%nat -> s r = r) /\ (forall c, (c < i)%nat -> 0 < a c c) /\
     (forall c, (i <= c < n)%nat -> offcol n i a c < a c c)) A n f HA)
   as (Lm & U & P & a & s & E & HL & HU & HP & Hs & HI1 & HI2 & HI3).
  - split; [auto|]. split; [intros; lia|]. intros c Hc. eapply Rle_lt_trans; [|apply Hdd; lia].
    unfold offcol. apply sumn_R_le. intros q Hq. simpl. destruct (q =? c)%nat; simpl; lra.
  - intros i a s k Hk Ek Hs (H1 & H2 & H3).
    assert (Hi : (i < n)%nat) by lia.
    assert (Eki : k = i).
    { rewrite Ek. apply pick_first. intros r Hr. apply R_ltb_false.
      pose proof (H3 i ltac:(lia)) as Hii. pose proof (offcol_term n i a i r ltac:(lia) ltac:(lia) ltac:(lia)) as Ht.
      pose proof (Rle_abs (a r i)). lra. }
    clear Ek. subst k.
    assert (Es : forall r c, swapf i i a r c = a r c) by (intros; apply swapf_id).
    assert (Ee : forall r c, elimf i (swapf i i a) r c = elimf i a r c).
    { intros r c. unfold elimf, lu_fac. rewrite !Es. reflexivity. }
    split; [|split].
    + intros r Hr. replace (tswap i i r) with r; [auto|]. unfold tswap. bcase.
    + intros c Hc. rewrite Ee. unfold elimf. replace (c <=? i)%nat with true by (symmetry; apply Nat.leb_le; lia).
      destruct (Nat.eq_dec c i) as [->|]; [|apply H2; lia].
      eapply Rle_lt_trans; [|apply (H3 i); lia]. unfold offcol. apply sumn_R_nonneg. intros q Hq. destruct (_ && _); [apply Rabs_pos|simpl; lra].
    + intros c Hc. rewrite Ee. replace (offcol n (S i) (elimf i (swapf i i a)) c) with (offcol n (S i) (elimf i a) c).
      * apply dd_step; auto; lia.
      * unfold offcol. apply sumn_ext. intros q Hq. rewrite Ee. reflexivity.
  - exists (mkLU Lm U P), (upart a). cbn [lu_u lu_p]. split; [assumption|]. split; [assumption|]. split.
    + eapply is_mat_ext; [|exact HP]. intros i j Hi Hj. unfold perm_fun, delta. rewrite HI1 by assumption. reflexivity.
    + intros k Hk. unfold upart. rewrite Nat.leb_refl. apply HI2. assumption.
Qed.

Lemma dd_regular A n f : is_mat A n n f ->
  (forall c, (c < n)%nat -> sumn n (fun r => if (r =? c)%nat then 0 else Rabs (f r c)) < f c c) ->
  lu_regular A n.
Proof.
  intros HA Hdd. destruct (dec_lu_dd A n f HA Hdd) as (d & u & E & HU & HP & Hu).
  exists d. split; [assumption|]. intros k x Hk Ex. rewrite (is_mat_get _ _ _ _ k k HU Hk Hk) in Ex. injection Ex as <-.
  pose proof (Hu k Hk). simpl. lra.
Qed.
End Real.
