(** Local error of the Runge-Kutta methods for steps of either sign. *)
From Coq Require Import Reals Lra Lia Arith List Bool.
From Coquelicot Require Import Coquelicot.
From Verif Require Import Outcome Scalar RealOps Matrix_model Vector_model Matrix_spec Ode_model Ode_spec OdeConv_spec Optim_spec Ode_proofs OdeOrder_proofs OdeConseq_proofs BigO_proofs OdeConv_proofs OdeLocal_proofs OdeGlobal_proofs OdeMulti_proofs F64Ode_spec.
Import ListNotations.
Local Open Scope R_scope.

Section Forward.
Context (B : tableau R) (m p : nat) (F : R -> (nat -> R) -> nat -> R) (t0 t1 : R) (Y : nat -> nat -> R -> R).
Context (rho L : R).
Context (Hs : (1 <= length (tb B))%nat) (Hok : tableau_ok (ta B) (tb B) (tc B)) (Hrow : row_sums (ta B) (tb B) (tc B)).
Context (Hord : has_order (ta B) (tb B) (tc B) p) (Hnode : forall k, (k < length (tb B) - 1)%nat -> 0 <= nth k (tc B) 0 <= 1).
Context (HY : smooth_solution m F t0 t1 (S p) Y).
Context (Hrho : 0 < rho) (HL : lipschitz_near m F t0 t1 (Y 0%nat) rho L).
Context (Hp : (1 <= p <= 4)%nat) (HJ : (3 <= p)%nat -> exists J, smooth_jacobian m F t0 t1 (Y 0%nat) rho (p - 2) J).

Lemma forward_stg : exists C H, 0 <= C /\ 0 < H /\ forall t h K, t0 <= t -> 0 < h <= H -> t + h <= t1 ->
  stg m (length (tb B)) (a_of (ta B)) (c_of (tc B)) F t (fun i => Y 0%nat i t) h K ->
  within m (fun i => step_of (length (tb B)) (b_of (tb B)) (fun i => Y 0%nat i t) h K i - Y 0%nat i (t + h)) (C * h ^ S p).
Proof.
  destruct HY as (HF & HD & M & HB). pose proof (lip_abs _ _ _ _ _ _ _ HL) as HLa.
  assert (HB' : forall k i t, (k <= S p)%nat -> (i < m)%nat -> t0 <= t <= t1 -> Rabs (Y k i t) <= Rabs M) by (intros; eapply Rle_trans; [apply HB; auto|apply RRle_abs]).
  assert (HQ : forall r, (r < p)%nat -> sumn (length (tb B)) (fun j => b_of (tb B) j * c_of (tc B) j ^ r) = 1 / INR (S r)) by (intros; now apply (quad_cond (ta B) (tb B) (tc B) p)).
  assert (Hc : forall j, (j < length (tb B))%nat -> 0 <= c_of (tc B) j <= 1) by (intros j Hj; destruct j as [|j]; [change (c_of (tc B) 0) with 0; lra|apply Hnode; lia]).
  assert (Hloc : forall i, (i < m)%nat -> bigO (adm m (length (tb B)) (a_of (ta B)) (c_of (tc B)) F t0 t1 Y rho (Rabs L) (Rabs M)) (fun x : sit => snd (fst x)) (S p) (local (length (tb B)) (b_of (tb B)) Y i)).
  { destruct (le_lt_dec p 2) as [H2|H2].
    - apply (local_2 m _ p _ _ _ F t0 t1 Y rho (Rabs L) (Rabs M)); auto using Rabs_pos; try lia.
    - destruct (HJ ltac:(lia)) as (J & (Q & HJ1) & HJd & MJ & HJb).
      assert (HJb' : forall k i l t, (k <= p - 2)%nat -> (i < m)%nat -> (l < m)%nat -> t0 <= t <= t1 -> Rabs (J k i l t) <= Rabs MJ) by (intros; eapply Rle_trans; [apply HJb; auto|apply RRle_abs]).
      pose proof (order_alpha _ _ _ p Hrow Hord ltac:(lia)) as OA.
      destruct (Nat.eq_dec p 3) as [E|E].
      + apply (local_3 m _ p _ _ _ F t0 t1 Y rho (Rabs L) (Rabs M)) with (J := J) (Q := Q) (MJ := Rabs MJ); auto using Rabs_pos; try lia.
      + destruct (order_4 _ _ _ p Hrow Hord ltac:(lia)) as (O1 & O2 & O3).
        apply (local_4 m _ p _ _ _ F t0 t1 Y rho (Rabs L) (Rabs M)) with (J := J) (Q := Q) (MJ := Rabs MJ); auto using Rabs_pos; try lia. }
  pose proof (hmax_pos (length (tb B)) (a_of (ta B)) rho (Rabs L) (Rabs M) Hrho (Rabs_pos L) (Rabs_pos M)) as HP.
  assert (Hh1 : forall x : sit, adm m (length (tb B)) (a_of (ta B)) (c_of (tc B)) F t0 t1 Y rho (Rabs L) (Rabs M) x -> 0 < snd (fst x) <= 1).
  { intros x (_ & Hx & _). cbn in Hx. lra. }
  destruct (O_unif _ _ Hh1 (S p) m (fun i => local (length (tb B)) (b_of (tb B)) Y i) Hloc) as (C & HC & Loc).
  exists C, (hmax (length (tb B)) (a_of (ta B)) rho (Rabs L) (Rabs M)). split; [exact HC|]. split; [apply HP|].
  intros t h K Ht Hh Hth HK i Hi. exact (Loc (t, h, K) (conj Ht (conj Hh (conj Hth HK))) i Hi).
Qed.
End Forward.

(** Order five. *)
Lemma forward_stg_5 (B : tableau R) m F t0 t1 Y rho L J Hs2 : (1 <= length (tb B))%nat -> row_sums (ta B) (tb B) (tc B) -> has_order (ta B) (tb B) (tc B) 5 ->
  (forall k, (k < length (tb B) - 1)%nat -> 0 <= nth k (tc B) 0 <= 1) -> smooth_solution m F t0 t1 6 Y -> 0 < rho -> lipschitz_near m F t0 t1 (Y 0%nat) rho L ->
  smooth_jacobian m F t0 t1 (Y 0%nat) rho 3 J -> smooth_hessian m F t0 t1 (Y 0%nat) rho (J 0%nat) Hs2 ->
  exists C H, 0 <= C /\ 0 < H /\ forall t h K, t0 <= t -> 0 < h <= H -> t + h <= t1 ->
  stg m (length (tb B)) (a_of (ta B)) (c_of (tc B)) F t (fun i => Y 0%nat i t) h K ->
  within m (fun i => step_of (length (tb B)) (b_of (tb B)) (fun i => Y 0%nat i t) h K i - Y 0%nat i (t + h)) (C * h ^ 6).
Proof.
  intros Hs Hrow Hord Hnode HY Hrho HL HJ HH. pose proof HY as (HF & HD & M & HB).
  assert (HB' : forall k i t, (k <= 6)%nat -> (i < m)%nat -> t0 <= t <= t1 -> Rabs (Y k i t) <= Rabs M) by (intros; eapply Rle_trans; [apply HB; auto|apply RRle_abs]).
  pose proof (loc_5 B m 5 F t0 t1 Y rho L Hs Hrow Hord Hnode HY Hrho HL J Hs2 eq_refl HJ HH M HB') as Hloc.
  pose proof (hmax_pos (length (tb B)) (a_of (ta B)) rho (Rabs L) (Rabs M) Hrho (Rabs_pos L) (Rabs_pos M)) as HP.
  assert (Hh1 : forall x : sit, adm m (length (tb B)) (a_of (ta B)) (c_of (tc B)) F t0 t1 Y rho (Rabs L) (Rabs M) x -> 0 < snd (fst x) <= 1).
  { intros x (_ & Hx & _). cbn in Hx. lra. }
  destruct (O_unif _ _ Hh1 6 m (fun i => local (length (tb B)) (b_of (tb B)) Y i) Hloc) as (C & HC & Loc).
  exists C, (hmax (length (tb B)) (a_of (ta B)) rho (Rabs L) (Rabs M)). split; [exact HC|]. split; [apply HP|].
  intros t h K Ht Hh Hth HK i Hi. exact (Loc (t, h, K) (conj Ht (conj Hh (conj Hth HK))) i Hi).
Qed.

(** ** Reversing time *)
Definition rev_F (F : R -> (nat -> R) -> nat -> R) (t : R) (x : nat -> R) (i : nat) : R := - F (- t) x i.
Definition rev_Y (Y : nat -> nat -> R -> R) (k i : nat) (t : R) : R := (-1) ^ k * Y k i (- t).
Definition rev_J (J : nat -> nat -> nat -> R -> R) (k i l : nat) (t : R) : R := - ((-1) ^ k * J k i l (- t)).

Lemma abs_sign k x : Rabs ((-1) ^ k * x) = Rabs x.
Proof. rewrite Rabs_mult, <- RPow_abs, (Rabs_left (-1)) by lra. replace (- -1) with 1 by ring. rewrite pow1, Rmult_1_l. reflexivity. Qed.

Lemma rev_derive (f : R -> R) t d : is_derive f (- t) d -> is_derive (fun s => f (- s)) t (- d).
Proof.
  intros H. replace (- d) with (scal (-1) d) by (unfold scal; cbn; unfold mult; cbn; ring). apply (is_derive_comp f (fun s => - s) t d (-1)); [exact H|].
  auto_derive; [exact I|ring].
Qed.
Lemma rev_smooth m F t0 t1 n Y : smooth_solution m F t0 t1 n Y -> smooth_solution m (rev_F F) (- t1) (- t0) n (rev_Y Y).
Proof.
  intros (H1 & H2 & M & H3). split; [|split].
  - intros i t Hi Ht. unfold rev_Y, rev_F. rewrite pow_1. rewrite (H1 i (- t) Hi ltac:(lra)). cbn [pow].
    replace (F (- t) (fun l => 1 * Y 0%nat l (- t)) i) with (F (- t) (fun l => Y 0%nat l (- t)) i); [ring|].
    f_equal. apply FunctionalExtensionality.functional_extensionality. intros l. ring.
  - intros k i t Hk Hi Ht. unfold rev_Y. pose proof (rev_derive _ t _ (H2 k i (- t) Hk Hi ltac:(lra))) as D.
    apply (is_derive_scal _ t ((-1) ^ k)) in D. cbn [pow]. replace (-1 * (-1) ^ k * Y (S k) i (- t)) with ((-1) ^ k * - Y (S k) i (- t)) by ring. exact D.
  - exists M. intros k i t Hk Hi Ht. unfold rev_Y. rewrite abs_sign. apply H3; auto; lra.
Qed.
Lemma rev_lipschitz m F t0 t1 y rho L : lipschitz_near m F t0 t1 y rho L -> lipschitz_near m (rev_F F) (- t1) (- t0) (fun i t => y i (- t)) rho L.
Proof.
  intros H t x x' r Ht Hx Hx' Hr i Hi. unfold rev_F. replace (- F (- t) x i - - F (- t) x' i) with (- (F (- t) x i - F (- t) x' i)) by ring. rewrite Rabs_Ropp.
  exact (H (- t) x x' r ltac:(lra) Hx Hx' Hr i Hi).
Qed.
Lemma rev_jacobian m F t0 t1 y rho n J : smooth_jacobian m F t0 t1 y rho n J -> smooth_jacobian m (rev_F F) (- t1) (- t0) (fun i t => y i (- t)) rho n (rev_J J).
Proof.
  intros ((Q & H1) & H2 & M & H3). split; [|split].
  - exists Q. intros t d r i Ht Hd Hr Hi. unfold rev_F, rev_J. specialize (H1 (- t) d r i ltac:(lra) Hd Hr Hi).
    replace (sumn m (fun l => - ((-1) ^ 0 * J 0%nat i l (- t)) * d l)) with (- sumn m (fun l => J 0%nat i l (- t) * d l)).
    + match type of H1 with Rabs ?u <= _ => match goal with |- Rabs ?v <= _ => replace v with (- u) by ring end end. rewrite Rabs_Ropp. exact H1.
    + clear. induction m as [|m IH]; [cbn; change (@zero R R_ops) with 0; ring|]. cbn [sumn]. change (@add R R_ops) with Rplus. rewrite <- IH. ring.
  - intros k i l t Hk Hi Hl Ht. unfold rev_J. pose proof (rev_derive _ t _ (H2 k i l (- t) Hk Hi Hl ltac:(lra))) as D.
    apply (is_derive_scal _ t (- (-1) ^ k)) in D. cbn [pow]. replace (- (-1 * (-1) ^ k * J (S k) i l (- t))) with (- (-1) ^ k * - J (S k) i l (- t)) by ring.
    apply (is_derive_ext (fun s => - (-1) ^ k * J k i l (- s))); [intros s; change (- (-1) ^ k * J k i l (- s) = - ((-1) ^ k * J k i l (- s))); ring|exact D].
  - exists M. intros k i l t Hk Hi Hl Ht. unfold rev_J. rewrite Rabs_Ropp, abs_sign. apply H3; auto; lra.
Qed.
Lemma sum_neg n (f g : nat -> R) h : (forall l, (l < n)%nat -> f l = - g l) -> sumn n f * h = sumn n g * - h.
Proof.
  intros H. replace (sumn n f) with (- sumn n g); [ring|]. induction n as [|n IH]; [cbn; change (@zero R R_ops) with 0; ring|].
  cbn [sumn]. change (@add R R_ops) with Rplus. rewrite (H n) by lia. rewrite <- IH by (intros; apply H; lia). ring.
Qed.
Lemma rev_stg m s a c F t g h K : stg m s a c F t g (- h) K -> stg m s a c (rev_F F) (- t) g h (fun j i => - K j i).
Proof.
  intros H j Hj. destruct (H j Hj) as (x & Hx & HK). exists x. split.
  - intros i Hi. rewrite (Hx i Hi). unfold xst. f_equal. symmetry. apply sum_neg. intros l _. ring.
  - intros i Hi. rewrite (HK i Hi). unfold rev_F. replace (- (- t + c j * h)) with (t + c j * - h) by ring. reflexivity.
Qed.

Lemma local_order B p f m F t0 t1 Y rho L : In (B, p) fixed_list ->
  (forall t, computes (f t) m m (F t)) ->
  smooth_solution m F t0 t1 (p + 1) Y -> 0 < rho -> lipschitz_near m F t0 t1 (Y 0%nat) rho L ->
  ((3 <= p)%nat -> exists J, smooth_jacobian m F t0 t1 (Y 0%nat) rho (p - 2) J) ->
  exists C H, 0 <= C /\ 0 < H /\ forall w, 0 <= w <= H -> local_error B f m (Y 0%nat) t0 t1 w (C * w ^ (p + 1)).
Proof.
  intros HB Hf HY Hr HL HJ. destruct (fixed_ok B p HB) as (Hs & Hok & Hp). destruct (fixed_orders B p HB) as [Hrow Hord].
  assert (Hn : forall k, (k < length (tb B) - 1)%nat -> 0 <= nth k (tc B) 0 <= 1).
  { intros k Hk. destruct (fixed_nodes B p HB) as (Hl & Hn). apply Hn. lia. }
  rewrite Nat.add_1_r in *.
  destruct (forward_stg B m p F t0 t1 Y rho L Hs Hrow Hord Hn HY Hr HL Hp HJ) as (C1 & H1 & C10 & H10 & Fw).
  destruct (forward_stg B m p (rev_F F) (- t1) (- t0) (rev_Y Y) rho L Hs Hrow Hord Hn (rev_smooth _ _ _ _ _ _ HY) Hr) as (C2 & H2 & C20 & H20 & Bw).
  { intros t x x' r Ht Hx Hx' Hxx. assert (Ey : forall z, within m (fun i => z i - rev_Y Y 0 i t) rho -> within m (fun i => z i - Y 0%nat i (- t)) rho).
    { intros z Hz i Hi. specialize (Hz i Hi). unfold rev_Y in Hz. rewrite pow_O, Rmult_1_l in Hz. exact Hz. }
    apply (rev_lipschitz _ _ _ _ _ _ _ HL t x x' r Ht (Ey x Hx) (Ey x' Hx') Hxx). }
  { exact Hp. }
  { intros H3. destruct (HJ H3) as (J & HJ'). exists (rev_J J).
    replace (rev_Y Y 0) with (fun i t => Y 0%nat i (- t)); [apply rev_jacobian, HJ'|].
    apply FunctionalExtensionality.functional_extensionality. intros i. apply FunctionalExtensionality.functional_extensionality. intros t. unfold rev_Y. ring. }
  assert (Htot : rhs_total f m). { intros t' x' g' Hg'. destruct (Hf t' x' g' Hg') as (y & E & Hy). eauto. }
  exists (Rmax C1 C2), (Rmin H1 H2). split; [eapply Rle_trans; [exact C10|apply Rmax_l]|]. split; [apply Rmin_glb_lt; assumption|].
  intros w (w0 & Hw) t s x Ht Hts Hsw Hx.
  pose proof (Rmin_l H1 H2). pose proof (Rmin_r H1 H2). pose proof (Rmax_l C1 C2). pose proof (Rmax_r C1 C2).
  destruct (step_stg B f m p F Hs Hok Hf (proj1 Hp) t x _ s Hx) as (r & K & E & HK & Hr').
  exists r, (step_of (length (tb B)) (b_of (tb B)) (fun i => Y 0%nat i t) s K). split; [exact E|]. split; [exact Hr'|].
  assert (Pw : forall u, 0 <= u <= w -> 0 <= u ^ S p <= w ^ S p) by (intros u Hu; split; [apply pow_le; lra|apply pow_incr; exact Hu]).
  destruct (Rtotal_order s 0) as [N|[Z|P]].
  - rewrite (Rabs_left s N) in Hsw. assert (HK' : stg m (length (tb B)) (a_of (ta B)) (c_of (tc B)) F t (fun i => Y 0%nat i t) (- - s) K) by (rewrite Ropp_involutive; exact HK).
    apply rev_stg in HK'. specialize (Bw (- t) (- s) (fun j i => - K j i) ltac:(lra) ltac:(lra) ltac:(lra)).
    replace (fun i => rev_Y Y 0 i (- t)) with (fun i => Y 0%nat i t) in Bw
      by (apply FunctionalExtensionality.functional_extensionality; intros i; unfold rev_Y; rewrite Ropp_involutive; ring).
    specialize (Bw HK'). intros i Hi. specialize (Bw i Hi). cbv beta in *.
    replace (step_of (length (tb B)) (b_of (tb B)) (fun i => Y 0%nat i t) s K i - Y 0%nat i (t + s))
      with (step_of (length (tb B)) (b_of (tb B)) (fun i => Y 0%nat i t) (- s) (fun j i => - K j i) i - rev_Y Y 0 i (- t + - s)).
    + eapply Rle_trans; [exact Bw|]. pose proof (Pw (- s) ltac:(lra)). apply Rmult_le_compat; lra.
    + unfold rev_Y, step_of. replace (- (- t + - s)) with (t + s) by ring. rewrite pow_O, Rmult_1_l. f_equal. f_equal.
      rewrite (sum_neg _ _ (fun j => K j i * b_of (tb B) j)); [rewrite Ropp_involutive; reflexivity|]. intros l _. ring.
  - subst s. intros i Hi. unfold step_of. rewrite Rplus_0_r, Rmult_0_r, Rplus_0_r, Rminus_eq_0, Rabs_R0. apply Rmult_le_pos; [lra|apply pow_le; lra].
  - rewrite (Rabs_pos_eq s) in Hsw by lra. specialize (Fw t s K ltac:(lra) ltac:(lra) ltac:(lra) HK). intros i Hi. eapply Rle_trans; [apply (Fw i Hi)|].
    pose proof (Pw s ltac:(lra)). apply Rmult_le_compat; lra.
Qed.
