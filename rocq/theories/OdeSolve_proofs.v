(** Proofs about the integration drivers over the reals. *)
From Coq Require Import Arith Lia List Bool ZArith Reals Lra.
From Verif Require Import Outcome Scalar RealOps Matrix_model Vector_model Matrix_spec Matrix_proofs Vector_proofs Sums Ode_model Ode_spec Ode_proofs OdeOrder_proofs OdeConseq_proofs Ortho_proofs.
Import ListNotations.
Local Open Scope R_scope.

(** ** Ceiling and casts *)
Lemma Int_part_IZR z : Int_part (IZR z) = z.
Proof.
  destruct (base_Int_part (IZR z)) as (H1 & H2).
  assert (Int_part (IZR z) <= z)%Z by (apply le_IZR; exact H1).
  assert (z < Int_part (IZR z) + 1)%Z by (apply lt_IZR; rewrite plus_IZR; lra). lia.
Qed.
Lemma R_ceil_spec y : exists z, R_ceil y = IZR z /\ IZR z - 1 < y <= IZR z.
Proof.
  exists (- Int_part (- y))%Z. unfold R_ceil. rewrite opp_IZR. split; [reflexivity|].
  destruct (base_Int_part (- y)). lra.
Qed.
Lemma steps_spec y : 0 <= y -> exists N, to_usize (add (tceil y) one) = S N /\ INR N - 1 < y <= INR N.
Proof.
  intros Hy. cbn [tceil to_usize R_gops add one R_ops]. destruct (R_ceil_spec y) as (z & -> & Hz).
  assert (0 <= z)%Z by (apply le_IZR; lra). exists (Z.to_nat z).
  rewrite <- plus_IZR, Int_part_IZR. split; [lia|]. rewrite INR_IZR_INZ, Z2Nat.id by assumption. lra.
Qed.

Lemma tmin_R x a : tmin x a = Rmin x a.
Proof.
  unfold tmin, Rmin. cbn [leb R_ops]. unfold R_leb. destruct (Rle_dec x a); reflexivity.
Qed.

(** ** The grid *)
Section Grid.
Variables t0 t1 h : R.
Hypothesis Ht : t0 <= t1.
Hypothesis Hh : 0 < h.
Let g := grid t0 t1 h.
Lemma grid_0 : g 0%nat = t0.
Proof. unfold g, grid. simpl. rewrite Rmult_0_l, Rplus_0_r. apply Rmin_left. exact Ht. Qed.
Lemma grid_step i : g i + Rmin h (t1 - g i) = g (S i).
Proof.
  unfold g, grid. rewrite S_INR. unfold Rmin.
  repeat match goal with |- context [Rle_dec ?a ?b] => destruct (Rle_dec a b) end; nra.
Qed.
Lemma grid_h i : Rmin h (t1 - g i) = g (S i) - g i.
Proof. pose proof (grid_step i). lra. Qed.
Lemma grid_in i : t0 <= g i <= t1.
Proof.
  unfold g, grid. pose proof (pos_INR i). unfold Rmin. destruct (Rle_dec _ _); nra.
Qed.
Lemma grid_h_range i : 0 <= g (S i) - g i <= h.
Proof.
  rewrite <- grid_h. pose proof (grid_in i). unfold Rmin. destruct (Rle_dec _ _); lra.
Qed.
Lemma grid_lt i : g i < t1 -> g i < g (S i).
Proof. intros H. rewrite <- grid_step. unfold Rmin. destruct (Rle_dec _ _); lra. Qed.
Variable N : nat.
Hypothesis HN : INR N - 1 < (t1 - t0) / h <= INR N.
Lemma grid_N i : (N <= i)%nat -> g i = t1.
Proof.
  intros H. unfold g, grid. apply Rmin_right. apply le_INR in H.
  assert ((t1 - t0) / h * h = t1 - t0) by (field; lra). nra.
Qed.
Lemma grid_below i : (i < N)%nat -> g i = t0 + INR i * h /\ g i < t1.
Proof.
  intros H. assert (Hi : INR i <= INR N - 1) by (
    assert (INR (S i) <= INR N) by (apply le_INR; lia); rewrite S_INR in *; lra).
  assert ((t1 - t0) / h * h = t1 - t0) by (field; lra).
  assert (t0 + INR i * h < t1) by nra. unfold g, grid. rewrite Rmin_left by lra. lra.
Qed.
End Grid.

(** ** Fixed step *)
Lemma nth_app_last {A} (l : list A) x d : nth (length l) (l ++ [x]) d = x.
Proof. rewrite app_nth2 by lia. rewrite Nat.sub_diag. reflexivity. Qed.

Lemma map_seq_S {A} (g : nat -> A) n : map g (seq 0 (S n)) = map g (seq 0 n) ++ [g n].
Proof. rewrite seq_S, map_app. reflexivity. Qed.

Lemma nth_grid_list (g : nat -> R) n i d : (i < n)%nat -> nth i (map g (seq 0 n)) d = g i.
Proof. apply nth_map_seq. Qed.

Lemma fixed_solve_spec h step t0 t1 init (I : vector R -> Prop) :
  0 < h -> t0 <= t1 -> I init ->
  (forall t x w, t0 <= t <= t1 -> 0 <= w <= h -> I x -> exists x', step t x w = Ret x' /\ I x') ->
  exists N tv xv, INR N - 1 < (t1 - t0) / h <= INR N /\
    fixed_solve h step t0 t1 init = Ret (tv, xv) /\ length tv = S N /\ length xv = S N /\
    (forall i, (i <= N)%nat -> nth i tv 0 = grid t0 t1 h i) /\
    nth 0 xv (vzero 0) = init /\ (forall i, (i <= N)%nat -> I (nth i xv (vzero 0))) /\ follows step tv xv.
Proof.
  intros Hh Ht HI Hstep. unfold fixed_solve. cbn [ltb R_ops].
  replace (R_ltb t1 t0) with false by (symmetry; apply R_ltb_false; exact Ht).
  assert (Hy : 0 <= (t1 - t0) / h) by (apply Rmult_le_pos; [lra|left; apply Rinv_0_lt_compat; exact Hh]).
  destruct (steps_spec ((t1 - t0) / h) Hy) as (N & HN & HNb).
  cbv zeta. cbn [sub div R_ops]. rewrite HN.
  set (g := grid t0 t1 h).
  edestruct (for_loop_ind (fun i (st : list R * list (vector R) * R * vector R) =>
     let '(tv, xv, tn, xn) := st in
     tv = map g (seq 0 i) /\ length xv = i /\ tn = g i /\ nth 0 (xv ++ [xn]) (vzero 0) = init /\
     (forall k, (k <= i)%nat -> I (nth k (xv ++ [xn]) (vzero 0))) /\
     (forall k, (k < i)%nat -> step (g k) (nth k (xv ++ [xn]) (vzero 0)) (g (S k) - g k) =
        Ret (nth (S k) (xv ++ [xn]) (vzero 0))))) as (st & Est & Hst).
  4:{ rewrite Est. cbn [bind]. destruct st as [[[tv xv] tn] xn]. destruct Hst as (Htv & Hxv & _ & H0 & HIx & Hfol).
      exists N, tv, xv. split; [exact HNb|]. split; [reflexivity|].
      split; [rewrite Htv, map_length, seq_length; reflexivity|]. split; [exact Hxv|].
      split; [intros i Hi; rewrite Htv; apply nth_grid_list; lia|].
      split; [rewrite app_nth1 in H0 by lia; exact H0|].
      split; [intros i Hi; specialize (HIx i ltac:(lia)); rewrite app_nth1 in HIx by lia; exact HIx|].
      intros i Hi. rewrite Htv in Hi |- *. rewrite map_length, seq_length in Hi. rewrite !nth_grid_list by lia.
      specialize (Hfol i ltac:(lia)). rewrite !app_nth1 in Hfol by lia. exact Hfol. }
  - lia.
  - repeat split; simpl; try lia; try (symmetry; apply grid_0; assumption).
    intros k Hk. replace k with 0%nat by lia. exact HI.
  - intros i [[[tv xv] tn] xn] Hi (Htv & Hxv & Htn & H0 & HIx & Hfol).
    rewrite tmin_R. cbn [sub add R_ops]. rewrite Htn. 
    assert (Ig : I xn). { specialize (HIx i ltac:(lia)). rewrite <- Hxv, nth_app_last in HIx. exact HIx. }
    rewrite (grid_h t0 t1 h Hh i : Rmin h (t1 - g i) = g (S i) - g i).
    destruct (Hstep (g i) xn (g (S i) - g i)) as (x' & Ex' & Ix').
    { apply grid_in; assumption. }
    { apply grid_h_range; assumption. }
    { exact Ig. }
    rewrite Ex'. cbn [bind]. eexists. split; [reflexivity|]. cbn beta iota.
    split; [rewrite map_seq_S, Htv; reflexivity|]. split; [rewrite app_length; simpl; lia|].
    split; [ring|].
    assert (HL : length (xv ++ [xn]) = S i) by (rewrite app_length; simpl; lia).
    split; [rewrite app_nth1 by lia; exact H0|]. split.
    + intros k Hk. destruct (Nat.eq_dec k (S i)) as [->|].
      * rewrite <- HL, nth_app_last. exact Ix'.
      * rewrite app_nth1 by lia. apply HIx. lia.
    + intros k Hk. rewrite (app_nth1 _ [x']) by lia. destruct (Nat.eq_dec k i) as [->|].
      * replace (nth (S i) ((xv ++ [xn]) ++ [x']) (vzero 0)) with x' by (rewrite <- HL, nth_app_last; reflexivity).
        replace (nth i (xv ++ [xn]) (vzero 0)) with xn by (rewrite <- Hxv, nth_app_last; reflexivity). exact Ex'.
      * rewrite (app_nth1 _ [x']) by lia. apply Hfol. lia.
Qed.

Lemma grid_list_increasing t0 t1 h N tv : t0 <= t1 -> 0 < h -> INR N - 1 < (t1 - t0) / h <= INR N ->
  length tv = S N -> (forall i, (i <= N)%nat -> nth i tv 0 = grid t0 t1 h i) -> increasing tv.
Proof.
  intros Ht Hh HN HL Hg i Hi. rewrite !Hg by lia. apply grid_lt; auto.
  destruct (grid_below t0 t1 h Hh N HN i ltac:(lia)). assumption.
Qed.

(** ** Dependence on the right-hand side *)
Lemma for_loop_ext_inv {St} (P : nat -> St -> Prop) (b1 b2 : nat -> St -> outcome St) lo hi s :
  P lo s -> (forall i s, (lo <= i < hi)%nat -> P i s -> b1 i s = b2 i s) ->
  (forall i s s', (lo <= i < hi)%nat -> P i s -> b1 i s = Ret s' -> P (S i) s') ->
  for_loop lo hi b1 s = for_loop lo hi b2 s.
Proof.
  intros H0 Heq Hinv. destruct (Nat.le_gt_cases hi lo); [rewrite !for_loop_nil by lia; reflexivity|].
  remember (hi - lo)%nat as n eqn:En. revert lo s H0 Heq Hinv H En. induction n as [|n IH]; intros; [lia|].
  rewrite !for_loop_step by assumption. rewrite <- (Heq lo s) by (auto; lia).
  destruct (b1 lo s) as [s'|] eqn:E; cbn [bind]; [|reflexivity].
  destruct (Nat.eq_dec (S lo) hi) as [->|]; [rewrite !for_loop_nil by lia; reflexivity|].
  apply IH; try lia.
  - eapply Hinv; [| |exact E]; auto; lia.
  - intros; apply Heq; auto; lia.
  - intros i s0 s0' Hi. apply Hinv; lia.
Qed.

Lemma stages_ext (a c : list R) s f1 f2 t x h lo hi :
  (forall k, (k < s - 1)%nat -> 0 <= nth k c 0 <= 1) -> 0 <= h -> lo <= t -> t + h <= hi ->
  (forall t x, lo <= t <= hi -> f1 t x = f2 t x) ->
  stages a c s f1 t x h = stages a c s f2 t x h.
Proof.
  intros Hc Hh Hlo Hhi Hf. unfold stages. rewrite (Hf t x) by lra.
  destruct (f2 t x) as [k0|]; cbn [bind]; [|reflexivity].
  apply for_loop_ext. intros j k Hj. cbv zeta.
  destruct (sub_slice _ _ _) as [aj|]; cbn [bind]; [|reflexivity].
  destruct (wsum _ _ _) as [sm|]; cbn [bind]; [|reflexivity].
  destruct (vget c (j - 1)) as [cj|] eqn:Ec; cbn [bind]; [|reflexivity].
  destruct (vadd _ _) as [xj|]; cbn [bind]; [|reflexivity].
  rewrite (Hf (add t (mul cj h))); [reflexivity|].
  assert (Hcj : 0 <= cj <= 1).
  { unfold vget in Ec. destruct (nth_error c (j - 1)) as [z|] eqn:En; [|discriminate]. injection Ec as ->.
    apply nth_error_nth with (d := 0) in En. rewrite <- En. apply Hc. lia. }
  cbn [add mul R_ops]. nra.
Qed.

Lemma do_step_ext (B : tableau R) f1 f2 t x h lo hi :
  (forall k, (k < length (tb B) - 1)%nat -> 0 <= nth k (tc B) 0 <= 1) -> 0 <= h -> lo <= t -> t + h <= hi ->
  (forall t x, lo <= t <= hi -> f1 t x = f2 t x) ->
  do_step B f1 t x h = do_step B f2 t x h.
Proof. intros. unfold do_step. rewrite (stages_ext _ _ _ f1 f2 t x h lo hi); auto. Qed.
Lemma do_step2_ext (B : tableau2 R) f1 f2 t x h lo hi :
  (forall k, (k < length (tb2 B) - 1)%nat -> 0 <= nth k (tc2 B) 0 <= 1) -> 0 <= h -> lo <= t -> t + h <= hi ->
  (forall t x, lo <= t <= hi -> f1 t x = f2 t x) ->
  do_step2 B f1 t x h = do_step2 B f2 t x h.
Proof. intros. unfold do_step2. rewrite (stages_ext _ _ _ f1 f2 t x h lo hi); auto. Qed.

Lemma fixed_solve_ext h s1 s2 t0 t1 init : 0 < h ->
  (forall t x w, t0 <= t -> 0 <= w -> t + w <= t1 -> s1 t x w = s2 t x w) ->
  fixed_solve h s1 t0 t1 init = fixed_solve h s2 t0 t1 init.
Proof.
  intros Hh Hs. unfold fixed_solve. cbn [ltb R_ops].
  destruct (R_ltb t1 t0) eqn:E; [reflexivity|]. apply R_ltb_false in E. cbv zeta.
  match goal with |- bind (for_loop 0 ?n ?b1 ?s) _ = bind (for_loop 0 ?n ?b2 ?s) _ =>
    rewrite (for_loop_ext_inv (fun _ (st : list R * list (vector R) * R * vector R) => t0 <= snd (fst st) <= t1) b1 b2 0 n s) end.
  - reflexivity.
  - cbn [fst snd]. lra.
  - intros i [[[tv xv] tn] xn] Hi Hp. cbn [fst snd] in Hp. cbn beta iota zeta.
    rewrite tmin_R. rewrite Hs; [reflexivity|lra| |].
    + cbn [sub R_ops]. apply Rmin_glb; lra.
    + cbn [sub R_ops]. pose proof (Rmin_r h (t1 - tn)). lra.
  - intros i [[[tv xv] tn] xn] st' Hi Hp H. cbn [fst snd] in Hp. cbn beta iota zeta in H.
    apply bind_ret in H as (x' & _ & H). injection H as <-. cbn [fst snd]. rewrite tmin_R. cbn [add sub R_ops].
    pose proof (Rmin_r h (t1 - tn)). assert (0 <= Rmin h (t1 - tn)) by (apply Rmin_glb; lra). lra.
Qed.

(** ** Adaptive steps *)
Lemma step_factor_pos p l e : 0 < fac_min p -> 0 < fac_max p -> 0 < step_factor p l e.
Proof.
  intros H1 H2. unfold step_factor. cbn [ltb R_ops].
  set (s := mul (fac p) _). destruct (R_ltb s (fac_min p)) eqn:E1.
  - destruct (R_ltb (fac_max p) (fac_min p)); assumption.
  - apply R_ltb_false in E1. destruct (R_ltb (fac_max p) s); lra.
Qed.

Definition run_ok (p : pcontrol) step (t0 t1 : R) init tv xv (tn : R) (xn : vector R) n : Prop :=
  length tv = S n /\ length xv = S n /\ (n <= n_max p)%nat /\ nth 0 tv 0 = t0 /\ nth 0 xv (vzero 0) = init /\
  nth n tv 0 = tn /\ nth n xv (vzero 0) = xn /\ tn <= t1 /\ increasing tv /\
  follows_within step (calc_error p) tv xv.

Lemma nth_app_old {A} (l : list A) y i d : (i < length l)%nat -> nth i (l ++ [y]) d = nth i l d.
Proof. apply app_nth1. Qed.

Lemma adapt_loop_spec p step l t0 t1 init : 0 < fac_min p -> 0 < fac_max p ->
  forall fuel tv xv tn xn h n r, 0 < h -> run_ok p step t0 t1 init tv xv tn xn n ->
  adapt_loop p step l t1 fuel tv xv tn xn h n = Ret (Some r) ->
  exists n' xn', run_ok p step t0 t1 init (fst (fst r)) (snd (fst r)) (snd r) xn' n' /\
     (n' = n_max p \/ snd r = t1).
Proof.
  intros Hf1 Hf2. induction fuel as [|fuel IH]; intros tv xv tn xn h n r Hh Hrun H; cbn [adapt_loop] in H;
    destruct ((n <? n_max p)%nat && ltb tn t1) eqn:Ec.
  1: discriminate.
  1, 3: injection H as <-; cbn [fst snd]; exists n, xn; split; [exact Hrun|];
    apply andb_false_iff in Ec; destruct Hrun as (_ & _ & Hn & _ & _ & _ & _ & Hle & _);
    destruct Ec as [Ec|Ec]; [left; apply Nat.ltb_ge in Ec; lia|right; apply R_ltb_false in Ec; lra].
  apply andb_true_iff in Ec as (Hn & Htn). apply Nat.ltb_lt in Hn. apply R_ltb_true in Htn.
  cbv zeta in H. rewrite tmin_R in H. cbn [sub R_ops] in H.
  assert (Hm : 0 < Rmin h (t1 - tn)) by (apply Rmin_glb_lt; lra).
  set (w := Rmin h (t1 - tn)) in *.
  apply bind_ret in H as ([x1 x2] & Est & H). cbn [fst snd] in H.
  apply bind_ret in H as (e & Ee & H).
  assert (Hh' : 0 < (if negb (eqb e zero) then mul (step_factor p l e) w else w)).
  { destruct (negb _); [|exact Hm]. cbn [mul R_ops]. apply Rmult_lt_0_compat; [|exact Hm].
    apply step_factor_pos; assumption. }
  refine (IH _ _ _ _ _ _ _ Hh' _ H). clear H IH Hh'.
  destruct (leb e one) eqn:Ele; [|exact Hrun].
  apply R_leb_true in Ele. cbn [one R_ops] in Ele. cbn [add R_ops].
  destruct Hrun as (L1 & L2 & Hnm & H1 & H2 & H3 & H4 & H5 & Hinc & Hfol).
  assert (Hw : w <= t1 - tn) by apply Rmin_r.
  unfold run_ok. rewrite !app_length, L1, L2. cbn [length].
  split; [lia|]. split; [lia|]. split; [lia|].
  split; [rewrite nth_app_old by lia; exact H1|]. split; [rewrite nth_app_old by lia; exact H2|].
  split; [rewrite <- L1; apply nth_app_last|]. split; [rewrite <- L2; apply nth_app_last|]. split; [lra|]. split.
  - intros i Hi. rewrite app_length, L1 in Hi. cbn [length] in Hi. rewrite (nth_app_old tv _ i) by lia.
    destruct (Nat.eq_dec i n) as [->|].
    + rewrite <- L1, nth_app_last. lra.
    + rewrite nth_app_old by lia. apply Hinc. lia.
  - intros i Hi. rewrite app_length, L1 in Hi. cbn [length] in Hi.
    rewrite (nth_app_old tv _ i), (nth_app_old xv _ i) by lia.
    destruct (Nat.eq_dec i n) as [->|].
    + replace (nth (S n) (tv ++ [tn + w]) 0) with (tn + w) by (rewrite <- L1, nth_app_last; reflexivity).
      replace (nth (S n) (xv ++ [x1]) (vzero 0)) with x1 by (rewrite <- L2, nth_app_last; reflexivity).
      exists x2, e. rewrite H3, H4. replace (tn + w - tn) with w by ring. auto.
    + rewrite !nth_app_old by lia. apply Hfol. lia.
Qed.

Lemma adapt_solve_spec p step q fuel t0 t1 init res :
  0 < h_0 p -> 0 < fac_min p -> 0 < fac_max p ->
  adapt_solve p step q fuel t0 t1 init = Ret (Some res) ->
  t0 <= t1 /\
  exists n tv xv xn tn, run_ok p step t0 t1 init tv xv tn xn n /\
    match res with
    | Some (tv', xv') => tv' = tv /\ xv' = xv /\ tn = t1
    | None => n = n_max p /\ tn < t1
    end.
Proof.
  intros Hh0 Hf1 Hf2 H. unfold adapt_solve in H. cbn [ltb R_ops] in H.
  destruct (R_ltb t1 t0) eqn:E; [discriminate|]. apply R_ltb_false in E. split; [exact E|]. cbv zeta in H.
  apply bind_ret in H as (r & Er & H). destruct r as [[[tv xv] tn]|]; [|discriminate].
  assert (Hinit : run_ok p step t0 t1 init [t0] [init] t0 init 0).
  { unfold run_ok. simpl. repeat split; try lia; try exact E; intros i Hi; simpl in Hi; lia. }
  destruct (adapt_loop_spec p step _ t0 t1 init Hf1 Hf2 _ _ _ _ _ _ _ _ Hh0 Hinit Er) as (n & xn & Hrun & Hend).
  cbn [fst snd] in Hrun, Hend. exists n, tv, xv, xn, tn.
  destruct (R_ltb tn t1) eqn:E2; injection H as <-.
  - apply R_ltb_true in E2. split; [exact Hrun|]. destruct Hend as [Hend|Hend]; [auto|lra].
  - apply R_ltb_false in E2. split; [exact Hrun|]. destruct Hrun as (_ & _ & _ & _ & _ & _ & _ & Hle & _).
    repeat split; auto. lra.
Qed.

Lemma adapt_loop_ext p s1 s2 l t0 t1 : 0 < fac_min p -> 0 < fac_max p ->
  (forall t x w, t0 <= t -> 0 <= w -> t + w <= t1 -> s1 t x w = s2 t x w) ->
  forall fuel tv xv tn xn h n, 0 < h -> t0 <= tn ->
  adapt_loop p s1 l t1 fuel tv xv tn xn h n = adapt_loop p s2 l t1 fuel tv xv tn xn h n.
Proof.
  intros Hf1 Hf2 Hs. induction fuel as [|fuel IH]; intros tv xv tn xn h n Hh Htn; cbn [adapt_loop]; [reflexivity|].
  destruct ((n <? n_max p)%nat && ltb tn t1) eqn:Ec; [|reflexivity].
  apply andb_true_iff in Ec as (_ & Htn1). apply R_ltb_true in Htn1. cbv zeta. rewrite tmin_R. cbn [sub R_ops].
  assert (Hm : 0 < Rmin h (t1 - tn)) by (apply Rmin_glb_lt; lra).
  assert (Hw : Rmin h (t1 - tn) <= t1 - tn) by apply Rmin_r.
  set (w := Rmin h (t1 - tn)) in *. rewrite (Hs tn xn w) by lra.
  destruct (s2 tn xn w) as [[x1 x2]|]; cbn [bind fst snd]; [|reflexivity].
  destruct (calc_error p x1 x2) as [e|]; cbn [bind]; [|reflexivity].
  apply IH.
  - destruct (negb _); [|exact Hm]. cbn [mul R_ops]. apply Rmult_lt_0_compat; [|exact Hm].
    apply step_factor_pos; assumption.
  - destruct (leb e one); [|exact Htn]. cbn [add R_ops]. lra.
Qed.

Lemma adapt_solve_ext p s1 s2 q fuel t0 t1 init : 0 < h_0 p -> 0 < fac_min p -> 0 < fac_max p ->
  (forall t x w, t0 <= t -> 0 <= w -> t + w <= t1 -> s1 t x w = s2 t x w) ->
  adapt_solve p s1 q fuel t0 t1 init = adapt_solve p s2 q fuel t0 t1 init.
Proof.
  intros H0 H1 H2 Hs. unfold adapt_solve. destruct (ltb t1 t0); [reflexivity|]. cbv zeta.
  rewrite (adapt_loop_ext p s1 s2 _ t0 t1); auto. lra.
Qed.

(** ** The error measure *)
Lemma calc_error_col {T} {O : Ops T} {P : POps T} (p : pcontrol) (y y_hat : vector T) m f g :
  (0 < m)%nat -> is_col y m f -> is_col y_hat m g ->
  calc_error p y y_hat =
  Ret (tsqrt (div (add zero (mul (div (sub (f 0%nat) (g 0%nat)) (add (abs_tol p) (mul (tabs (f 0%nat)) (rel_tol p))))
                                 (div (sub (f 0%nat) (g 0%nat)) (add (abs_tol p) (mul (tabs (f 0%nat)) (rel_tol p))))))
                  one)).
Proof.
  intros Hm Hy Hh. unfold calc_error. rewrite (is_mat_cols _ _ _ _ Hy).
  rewrite for_loop_step by lia. rewrite (col_get y m f 0 Hy Hm), (col_get y_hat m g 0 Hh Hm). cbn [bind].
  rewrite for_loop_nil by lia. reflexivity.
Qed.

(** ** Step-size control *)
Lemma step_factor_range (p : @pcontrol R) l e : fac_min p <= fac_max p -> fac_min p <= step_factor p l e <= fac_max p.
Proof.
  intros H. unfold step_factor. cbn [ltb R_ops]. set (s := mul (fac p) _).
  destruct (R_ltb s (fac_min p)) eqn:E1.
  - apply R_ltb_true in E1. destruct (R_ltb (fac_max p) (fac_min p)) eqn:E2; [apply R_ltb_true in E2; lra|lra].
  - apply R_ltb_false in E1. destruct (R_ltb (fac_max p) s) eqn:E2; [lra|apply R_ltb_false in E2; lra].
Qed.

Lemma step_factor_reject (p : @pcontrol R) l e : 0 <= fac p <= 1 -> fac_min p <= 1 -> 0 <= l -> 1 < e -> step_factor p l e <= 1.
Proof.
  intros Hf Hm Hl He.
  assert (Hs : fac p * R_pow (1 / e) l <= 1).
  { assert (0 < 1 / e <= 1). { split; [apply Rdiv_lt_0_compat; lra|]. apply Rmult_le_reg_r with e; [lra|]. unfold Rdiv. rewrite Rmult_assoc, Rinv_l by lra. lra. }
    assert (0 <= R_pow (1 / e) l <= 1).
    { rewrite R_pow_pos by lra. unfold Rpower. split; [left; apply exp_pos|].
      rewrite <- exp_0 at 2. assert (ln (1 / e) <= 0). { rewrite <- ln_1. destruct (Req_dec (1 / e) 1) as [->|]; [lra|]. left. apply ln_increasing; lra. }
      destruct (Req_dec (l * ln (1 / e)) 0) as [->|]; [lra|]. left. apply exp_increasing. nra. }
    nra. }
  unfold step_factor. cbn [ltb R_ops mul div one tpow R_pops]. cbv zeta.
  destruct (R_ltb (fac p * R_pow (1 / e) l) (fac_min p)) eqn:E1.
  - destruct (R_ltb (fac_max p) (fac_min p)) eqn:E2; [apply R_ltb_true in E2; lra|lra].
  - destruct (R_ltb (fac_max p) _) eqn:E2; [apply R_ltb_true in E2; lra|lra].
Qed.

Definition width (tv : list R) i : R := nth (S i) tv 0 - nth i tv 0.

Definition grow_ok (M h0 : R) (tv : list R) n (tn h : R) : Prop :=
  length tv = S n /\ nth n tv 0 = tn /\ 0 < h /\
  (n = 0%nat -> h <= h0) /\ (forall k, n = S k -> h <= M * width tv k) /\
  ((1 <= n)%nat -> width tv 0 <= h0) /\
  (forall i, (S i < n)%nat -> width tv (S i) <= M * width tv i).

Lemma width_app tv y i : (S i < length tv)%nat -> width (tv ++ [y]) i = width tv i.
Proof. intros H. unfold width. rewrite !nth_app_old by lia. reflexivity. Qed.

Lemma adapt_loop_grow (p : @pcontrol R) step l t1 : 0 <= fac p <= 1 -> 0 < fac_min p -> fac_min p <= 1 -> 0 < fac_max p -> 0 <= l ->
  forall fuel tv xv tn xn h n r, grow_ok (Rmax 1 (fac_max p)) (h_0 p) tv n tn h ->
  adapt_loop p step l t1 fuel tv xv tn xn h n = Ret (Some r) ->
  exists n' h', grow_ok (Rmax 1 (fac_max p)) (h_0 p) (fst (fst r)) n' (snd r) h'.
Proof.
  intros Hfac Hf1 Hf1' Hf2 Hl. set (M := Rmax 1 (fac_max p)).
  assert (HM : 1 <= M) by apply Rmax_l. assert (HMf : fac_max p <= M) by apply Rmax_r.
  induction fuel as [|fuel IH]; intros tv xv tn xn h n r G H; cbn [adapt_loop] in H;
    destruct ((n <? n_max p)%nat && ltb tn t1) eqn:Ec.
  1: discriminate.
  1, 3: injection H as <-; cbn [fst snd]; exists n, h; exact G.
  apply andb_true_iff in Ec as (_ & Htn). apply R_ltb_true in Htn.
  cbv zeta in H. rewrite tmin_R in H. cbn [sub R_ops] in H.
  destruct G as (L & Hlast & Hh & G1 & G2 & G3 & G4).
  assert (Hm : 0 < Rmin h (t1 - tn)) by (apply Rmin_glb_lt; lra).
  assert (Hmh : Rmin h (t1 - tn) <= h) by apply Rmin_l.
  set (w := Rmin h (t1 - tn)) in *.
  apply bind_ret in H as ([x1 x2] & Est & H). cbn [fst snd] in H.
  apply bind_ret in H as (e & Ee & H).
  refine (IH _ _ _ _ _ _ _ _ H). clear H IH.
  set (h' := if negb (eqb e zero) then mul (step_factor p l e) w else w).
  assert (Hh' : 0 < h').
  { unfold h'. destruct (negb _); [|exact Hm]. cbn [mul R_ops]. apply Rmult_lt_0_compat; [|exact Hm].
    apply step_factor_pos; assumption. }
  destruct (leb e one) eqn:Ele.
  - apply R_leb_true in Ele. cbn [one R_ops] in Ele. cbn [add R_ops].
    assert (Hw' : h' <= M * w).
    { unfold h'. destruct (negb _); [|nra]. cbn [mul R_ops]. apply Rmult_le_compat_r; [lra|].
      destruct (Rle_dec (fac_min p) (fac_max p)).
      - pose proof (step_factor_range p l e r0). lra.
      - unfold step_factor. cbn [ltb R_ops]. cbv zeta. destruct (R_ltb _ (fac_min p)).
        + destruct (R_ltb _ _); lra.
        + destruct (R_ltb (fac_max p) _) eqn:E; [lra|]. apply R_ltb_false in E. lra. }
    unfold grow_ok. rewrite app_length, L. cbn [length]. split; [lia|]. split; [rewrite <- L; apply nth_app_last|].
    split; [exact Hh'|]. split; [lia|].
    assert (Hnew : width (tv ++ [tn + w]) n = w).
    { unfold width. rewrite (nth_app_old tv _ n) by lia. rewrite Hlast. rewrite <- L, nth_app_last. ring. }
    split; [intros k [= <-]; rewrite Hnew; exact Hw'|].
    split.
    + intros _. destruct n as [|n]; [rewrite Hnew; specialize (G1 eq_refl); lra|].
      rewrite width_app by lia. apply G3. lia.
    + intros i Hi. destruct (Nat.eq_dec (S i) n) as [<-|].
      * rewrite Hnew. rewrite width_app by lia. specialize (G2 i eq_refl). lra.
      * rewrite !width_app by lia. apply G4. lia.
  - assert (Ele' : 1 < e) by (apply R_leb_false in Ele; exact Ele).
    assert (h' <= h).
    { unfold h'. destruct (negb _); [|lra]. cbn [mul R_ops]. pose proof (step_factor_reject p l e Hfac Hf1' Hl Ele').
      pose proof (step_factor_pos p l e Hf1 Hf2). nra. }
    split; [exact L|]. split; [exact Hlast|]. split; [exact Hh'|]. split; [intros E; specialize (G1 E); lra|].
    split; [intros k E; specialize (G2 k E); lra|]. auto.
Qed.

Lemma adapt_solve_grow (p : @pcontrol R) step q fuel t0 t1 init tv xv :
  0 < h_0 p -> 0 <= fac p <= 1 -> 0 < fac_min p -> fac_min p <= 1 -> 0 < fac_max p ->
  adapt_solve p step q fuel t0 t1 init = Ret (Some (Some (tv, xv))) ->
  ((2 <= length tv)%nat -> nth 1 tv 0 - nth 0 tv 0 <= h_0 p) /\
  forall i, (S (S i) < length tv)%nat ->
    nth (S (S i)) tv 0 - nth (S i) tv 0 <= Rmax 1 (fac_max p) * (nth (S i) tv 0 - nth i tv 0).
Proof.
  intros H0 Hf Hm Hm1 HM H. unfold adapt_solve in H. cbn [ltb R_ops] in H.
  destruct (R_ltb t1 t0); [discriminate|]. cbv zeta in H.
  apply bind_ret in H as (r & Er & H). destruct r as [[[tv' xv'] tn]|]; [|discriminate].
  destruct (R_ltb tn t1); [discriminate|]. injection H as -> ->.
  match type of Er with adapt_loop p step ?l _ _ _ _ _ _ _ _ = _ => assert (Hl : 0 <= l) end.
  { rewrite of_Z_R. cbn [div one add R_ops]. rewrite <- INR_IZR_INZ. pose proof (pos_INR q). left. apply Rdiv_lt_0_compat; lra. }
  assert (G0 : grow_ok (Rmax 1 (fac_max p)) (h_0 p) [t0] 0 t0 (h_0 p)).
  { unfold grow_ok. simpl. repeat split; try lia; auto; try lra; discriminate. }
  destruct (adapt_loop_grow p step _ t1 Hf Hm Hm1 HM Hl _ _ _ _ _ _ _ _ G0 Er) as (n & h & G).
  cbn [fst snd] in G. destruct G as (L & _ & _ & _ & _ & G3 & G4). split.
  - intros Hl2. apply G3. lia.
  - intros i Hi. apply (G4 i). lia.
Qed.

(** ** Accepted orders of the multistep methods *)
Lemma ms_new_iff kmax k (h : R) r : ms_new kmax k h = Ret r <-> (1 <= k <= kmax)%nat /\ 0 < h /\ r = (k, h).
Proof.
  unfold ms_new. cbn [leb R_ops zero]. destruct (Nat.eqb_spec k 0); cbn [orb].
  { split; [discriminate|]. intros ((? & _) & _). lia. }
  destruct (Nat.ltb_spec kmax k). { split; [discriminate|]. intros ((_ & ?) & _). lia. }
  destruct (R_leb h 0) eqn:E.
  - apply R_leb_true in E. split; [discriminate|]. intros (_ & ? & _). lra.
  - apply R_leb_false in E. split; [intros [= <-]; repeat split; auto; lia|]. intros (_ & _ & ->). reflexivity.
Qed.
