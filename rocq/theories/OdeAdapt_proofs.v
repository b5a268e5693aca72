(** The adaptive driver: accuracy of its runs and termination. *)
From Coq Require Import Arith Lia List Bool Reals Lra Psatz.
From Coquelicot Require Import Coquelicot.
From Verif Require Import Outcome Scalar RealOps Matrix_model Vector_model Matrix_spec Optim_spec Matrix_proofs Vector_proofs Sums
  Ode_model Ode_spec Ode_proofs OdeOrder_proofs OdeConseq_proofs OdeSolve_proofs OdeMulti_proofs BigO_proofs OdeConv_spec OdeConv_proofs OdeLocal_proofs OdeGlobal_proofs DecompProps_proofs.
Import ListNotations.
Local Open Scope R_scope.

(** ** Accuracy *)
Definition main_tab (B : tableau2 R) : tableau R := mkTableau (ta2 B) (tb2 B) (tc2 B).
Lemma do_step2_main (B : tableau2 R) f t x h r rs : do_step2 B f t x h = Ret (r, rs) -> do_step (main_tab B) f t x h = Ret r.
Proof.
  unfold do_step2, do_step, main_tab. cbn [ta tb tc]. intros E. apply bind_ret in E as (k & -> & E). cbn [bind].
  apply bind_ret in E as (sm & -> & E). cbn [bind]. apply bind_ret in E as (x1 & -> & E). apply bind_ret in E as (s2 & _ & E). apply bind_ret in E as (x2 & _ & E).
  injection E as -> _. reflexivity.
Qed.
Lemma adaptive_of_grids p B f m t0 t1 y : accurate_on_grids p (main_tab B) f m t0 t1 y -> adaptive_accurate p B f m t0 t1 y.
Proof.
  intros (C & H & HH & Acc). exists C, H. split; [exact HH|]. intros ctl q fuel h delta init g0 tv xv H0 H1 H2 Hh Hd Hinit Hg0 E Hst.
  destruct (adapt_solve_spec ctl (do_step2 B f) q fuel t0 t1 init _ H0 H1 H2 E) as (_ & n & tv' & xv' & xn & tn & Hr & <- & <- & ->).
  destruct Hr as (L1 & L2 & Hn & Ht0 & Hx0 & Htn & Hxn & Hle & Hinc & Hfol).
  split; [lia|]. intros i Hi. refine (Acc h delta n tv xv g0 Hh Hd L1 L2 Ht0 _ _ _ Hg0 _ i _); [lra| | | |lia].
  - intros k Hk. split; [|apply Hst; lia]. specialize (Hinc k ltac:(lia)). lra.
  - rewrite Hx0. exact Hinit.
  - intros k Hk. destruct (Hfol k ltac:(lia)) as (xh & e & E1 & _). exact (do_step2_main _ _ _ _ _ _ _ E1).
Qed.
Lemma embedded_ok B p p' : In (B, (p, p')) embedded_list \/ (B = cash_karp45 /\ p = 4%nat /\ p' = 5%nat) ->
  (1 <= length (tb2 B))%nat /\ tableau_ok (ta2 B) (tb2 B) (tc2 B) /\ (length (tbs2 B) <= length (tb2 B))%nat /\ (1 <= p <= 5)%nat.
Proof.
  intros H. cbn [In embedded_list] in H.
  destruct H as [H|(-> & -> & ->)]; [repeat match type of H with _ \/ _ => destruct H as [H|H] end; try contradiction; injection H as <- <- <-|];
    (split; [vm_compute; lia|split; [split; vm_compute; lia|split; vm_compute; lia]]).
Qed.
Lemma embedded_main B p p' : In (B, (p, p')) embedded_list \/ (B = cash_karp45 /\ p = 4%nat /\ p' = 5%nat) ->
  row_sums (ta2 B) (tb2 B) (tc2 B) /\ has_order (ta2 B) (tb2 B) (tc2 B) p.
Proof.
  intros [H|(-> & -> & ->)]; [destruct (embedded_orders B p p' H) as (A & C & _); auto|]. destruct cash_karp_swapped as (A & C & _). auto.
Qed.
Lemma smooth_le m F t0 t1 n n' Y : (n' <= n)%nat -> smooth_solution m F t0 t1 n Y -> smooth_solution m F t0 t1 n' Y.
Proof. intros Hn (A & D & M & HM). split; [exact A|]. split; [intros; apply D; auto; lia|]. exists M. intros; apply HM; auto; lia. Qed.
Lemma order_le a b c p p' : (p' <= p)%nat -> has_order a b c p -> has_order a b c p'.
Proof. intros H Hp t Ht. apply Hp. lia. Qed.

(** Steps that never grow. *)
Lemma steps_le_h0 (ctl : @pcontrol R) step q fuel t0 t1 init tv xv : 0 < h_0 ctl -> 0 <= fac ctl <= 1 -> 0 < fac_min ctl -> fac_min ctl <= 1 -> 0 < fac_max ctl <= 1 ->
  adapt_solve ctl step q fuel t0 t1 init = Ret (Some (Some (tv, xv))) -> forall i, (S i < length tv)%nat -> nth (S i) tv 0 - nth i tv 0 <= h_0 ctl.
Proof.
  intros H0 H1 H2 H3 H4 E. destruct (adapt_solve_grow ctl step q fuel t0 t1 init tv xv H0 H1 H2 H3 (proj1 H4) E) as (G0 & G).
  rewrite Rmax_left in G by lra. induction i as [|i IH]; intros Hi; [apply G0; lia|]. specialize (IH ltac:(lia)). specialize (G i Hi). lra.
Qed.

(** ** Termination *)
Lemma Rpower_mono_base x y z : 0 < x <= y -> 0 <= z -> Rpower x z <= Rpower y z.
Proof.
  intros Hx Hz. unfold Rpower. assert (L : ln x <= ln y). { destruct (Rle_lt_or_eq_dec x y (proj2 Hx)) as [H|<-]; [left; apply ln_increasing; lra|lra]. }
  destruct (Rle_lt_or_eq_dec (z * ln x) (z * ln y)) as [H|H]; [apply Rmult_le_compat_l; lra|left; now apply exp_increasing|rewrite H; lra].
Qed.
Section Term.
Context (p : @pcontrol R) (step : R -> vector R -> R -> outcome (vector R * vector R)) (q : nat) (t0 t1 K : R) (I : R -> vector R -> Prop).
Context (Hh0 : 0 < h_0 p) (Hfac : 0 < fac p < 1) (Hmin : 0 < fac_min p < 1) (Hmax : 1 <= fac_max p) (HK : 0 < K).
Context (cap : R) (Hcap : (fac_max p <= 1 /\ h_0 p <= cap) \/ t1 - t0 <= cap).
Context (Hstep : forall t x h, I t x -> t0 <= t -> 0 < h <= cap -> t + h <= t1 ->
  exists y yh e, step t x h = Ret (y, yh) /\ calc_error p y yh = Ret e /\ 0 <= e <= K * h /\ (e <= 1 -> I (t + h) y)).
Let l := 1 / (INR q + 1).
Let cc := Rpower (fac p) (INR q + 1).
Let hm := Rmin (h_0 p) (fac_min p * cc / K).
Let rho := Rmax (fac_min p) (fac p).

Lemma l_pos : 0 < l.
Proof. unfold l. apply Rdiv_lt_0_compat; [lra|]. pose proof (pos_INR q). lra. Qed.
Lemma cc_range : 0 < cc <= 1.
Proof.
  pose proof (pos_INR q). unfold cc. split; [apply exp_pos|]. apply Rle_trans with (Rpower 1 (INR q + 1)); [apply Rpower_mono_base; lra|].
  unfold Rpower. rewrite ln_1, Rmult_0_r, exp_0. lra.
Qed.
Lemma cc_l : Rpower cc l = fac p.
Proof. pose proof (pos_INR q). unfold cc, l. rewrite Rpower_mult. replace ((INR q + 1) * (1 / (INR q + 1))) with 1 by (field; lra). apply Rpower_1. lra. Qed.
Lemma hm_pos : 0 < hm.
Proof. pose proof cc_range. unfold hm. apply Rmin_glb_lt; [exact Hh0|]. apply Rdiv_lt_0_compat; [|exact HK]. apply Rmult_lt_0_compat; lra. Qed.
Lemma rho_range : 0 < rho < 1.
Proof. unfold rho. split; [eapply Rlt_le_trans; [apply Hmin|apply Rmax_l]|apply Rmax_lub_lt; lra]. Qed.
Lemma sf_lower e : fac_min p <= step_factor p l e.
Proof. apply (step_factor_range p l e). lra. Qed.
Lemma sf_reject e : 1 < e -> step_factor p l e <= rho.
Proof.
  intros He. pose proof l_pos as Hl. unfold step_factor. cbn [ltb R_ops mul div one tpow R_pops]. cbv zeta. rewrite R_pow_pos by (apply Rdiv_lt_0_compat; lra).
  assert (P : Rpower (1 / e) l <= 1).
  { apply Rle_trans with (Rpower 1 l); [apply Rpower_mono_base; [|lra]|unfold Rpower; rewrite ln_1, Rmult_0_r, exp_0; lra].
    split; [apply Rdiv_lt_0_compat; lra|]. apply (Rmult_le_reg_r e); [lra|]. unfold Rdiv. rewrite Rmult_assoc, Rinv_l by lra. lra. }
  assert (P0 : 0 < Rpower (1 / e) l) by apply exp_pos. set (s := fac p * Rpower (1 / e) l). assert (S : s <= fac p) by (unfold s; nra).
  assert (M1 : fac_min p <= rho) by apply Rmax_l. assert (M2 : fac p <= rho) by apply Rmax_r.
  assert (A : (if R_ltb s (fac_min p) then fac_min p else s) <= rho) by (destruct (R_ltb s (fac_min p)); lra).
  destruct (R_ltb (fac_max p) _) eqn:E; [apply R_ltb_true in E; lra|exact A].
Qed.
Lemma sf_small e : 0 < e <= cc -> 1 <= step_factor p l e.
Proof.
  intros He. pose proof l_pos as Hl. pose proof cc_range as Hc. unfold step_factor. cbn [ltb R_ops mul div one tpow R_pops]. cbv zeta. rewrite R_pow_pos by (apply Rdiv_lt_0_compat; lra).
  assert (P : / fac p <= Rpower (1 / e) l).
  { rewrite <- cc_l, <- Rpower_Ropp. replace (Rpower cc (- l)) with (Rpower (1 / cc) l) by (unfold Rpower; f_equal; rewrite ln_div by lra; rewrite ln_1; ring).
    apply Rpower_mono_base; [|lra]. split; [apply Rdiv_lt_0_compat; lra|]. unfold Rdiv. apply Rmult_le_compat_l; [lra|]. apply Rinv_le_contravar; lra. }
  set (s := fac p * Rpower (1 / e) l). assert (S : 1 <= s). { apply Rle_trans with (fac p * / fac p); [rewrite Rinv_r; lra|apply Rmult_le_compat_l; lra]. }
  assert (A : 1 <= (if R_ltb s (fac_min p) then fac_min p else s)) by (destruct (R_ltb s (fac_min p)) eqn:E; [apply R_ltb_true in E; lra|exact S]).
  destruct (R_ltb (fac_max p) _); [exact Hmax|exact A].
Qed.

Lemma cap_next h' w e u : h' = (if negb (R_eqb e 0) then step_factor p l e * w else w) -> 0 < w -> w <= cap -> t0 <= u -> Rmin h' (t1 - u) <= cap.
Proof.
  intros -> Hw Hc Hu. destruct Hcap as [[M1 _]|M1]; [|eapply Rle_trans; [apply Rmin_r|]; lra].
  eapply Rle_trans; [apply Rmin_l|]. destruct (negb (R_eqb e 0)); [|exact Hc].
  assert (S : step_factor p l e <= fac_max p) by (apply (step_factor_range p l e); lra). nra.
Qed.
Context (Rj : nat) (HRj : (t1 - t0) * rho ^ Rj <= / K).
Definition need (A r : nat) : nat := (A * (Rj + 2) + r)%nat.

Lemma adapt_terminates : forall A r tv xv tn xn h n, I tn xn -> t0 <= tn <= t1 -> hm <= h -> t1 - tn <= INR A * hm ->
  Rmin h (t1 - tn) <= cap -> Rmin h (t1 - tn) * rho ^ r <= / K ->
  exists tv' xv' tn', (forall fuel, (need A r <= fuel)%nat -> adapt_loop p step l t1 fuel tv xv tn xn h n = Ret (Some (tv', xv', tn'))) /\
    ((n + A <= n_max p)%nat -> tn' = t1).
Proof.
  pose proof hm_pos as Hhm. pose proof rho_range as Hrho. pose proof cc_range as Hcc. assert (IK : 0 < / K) by now apply Rinv_0_lt_compat.
  assert (H1 : hm <= fac_min p * cc / K) by apply Rmin_r.
  assert (H2 : fac_min p * cc / K <= fac_min p * / K) by (unfold Rdiv; apply Rmult_le_compat_r; [lra|nra]).
  induction A as [|A IHA].
  - intros r tv xv tn xn h n HI Ht Hh HA _ _. cbn [INR] in HA. assert (tn = t1) by lra. subst tn. exists tv, xv, t1. split; [|reflexivity].
    intros fuel _. destruct fuel; cbn [adapt_loop ltb R_ops]; rewrite (proj2 (R_ltb_false t1 t1) (Rle_refl _)), andb_false_r; reflexivity.
  - induction r as [|r IHr]; intros tv xv tn xn h n HI Ht Hh HA Hc Hr;
    (destruct ((n <? n_max p)%nat && R_ltb tn t1) eqn:Ec;
      [|exists tv, xv, tn; split;
        [intros fuel _; destruct fuel; cbn [adapt_loop ltb R_ops]; rewrite Ec; reflexivity
        |intros Hn; apply andb_false_iff in Ec as [Ec|Ec]; [apply Nat.ltb_ge in Ec; lia|apply R_ltb_false in Ec; lra]]]);
    (apply andb_true_iff in Ec as (Ec1 & Ec2); pose proof Ec1 as En; apply Nat.ltb_lt in En; pose proof Ec2 as Htl; apply R_ltb_true in Htl;
     set (w := Rmin h (t1 - tn)) in *; assert (Hw : 0 < w) by (unfold w; apply Rmin_glb_lt; lra); assert (Hw1 : w <= h) by apply Rmin_l; assert (Hw2 : w <= t1 - tn) by apply Rmin_r;
     destruct (Hstep tn xn w HI (proj1 Ht) (conj Hw Hc) ltac:(lra)) as (y & yh & e & E1 & E2 & He & HI');
     assert (Body : forall fuel, adapt_loop p step l t1 (S fuel) tv xv tn xn h n =
       adapt_loop p step l t1 fuel (if R_leb e 1 then tv ++ [if R_leb e 1 then tn + w else tn] else tv) (if R_leb e 1 then xv ++ [if R_leb e 1 then y else xn] else xv)
         (if R_leb e 1 then tn + w else tn) (if R_leb e 1 then y else xn) (if negb (R_eqb e 0) then step_factor p l e * w else w) (if R_leb e 1 then S n else n))
       by (intros fuel; cbn [adapt_loop ltb leb eqb add mul sub one zero R_ops]; rewrite Ec1, Ec2; cbn [andb]; cbv zeta; rewrite tmin_R; fold w; rewrite E1; cbn [bind fst snd]; rewrite E2; cbn [bind]; reflexivity);
     set (h' := if negb (R_eqb e 0) then step_factor p l e * w else w) in *;
     assert (Hc' : forall u, t0 <= u -> Rmin h' (t1 - u) <= cap) by (intros u Hu; exact (cap_next h' w e u eq_refl Hw Hc Hu));
     destruct (R_leb e 1) eqn:Ee; [apply R_leb_true in Ee|apply R_leb_false in Ee]).
    1, 3: (* accepted *)
      (destruct (Rle_lt_dec (t1 - tn) h) as [Hcl|Hcl];
       [ assert (Ew : tn + w = t1) by (unfold w; rewrite Rmin_right by exact Hcl; ring); eexists; eexists; exists t1; split; [|reflexivity];
         intros fuel Hf; destruct fuel as [|fuel]; [unfold need in Hf; lia|]; rewrite Body, Ew;
         destruct fuel; cbn [adapt_loop ltb R_ops]; rewrite (proj2 (R_ltb_false t1 t1) (Rle_refl _)), andb_false_r; reflexivity
       | assert (Ew : w = h) by (unfold w; apply Rmin_left; lra);
         assert (Hh' : hm <= h');
         [ unfold h'; destruct (R_eqb e 0) eqn:Eq; cbn [negb]; [lra|];
           assert (e <> 0) by (intros ->; rewrite (proj2 (R_eqb_true 0 0) eq_refl) in Eq; discriminate);
           destruct (Rle_lt_dec e cc) as [Hec|Hec];
           [ pose proof (sf_small e ltac:(lra)) as S1; nra
           | pose proof (sf_lower e) as S1; assert (cc / K < w) by (apply (Rmult_lt_reg_r K); [exact HK|]; unfold Rdiv; rewrite Rmult_assoc, Rinv_l by lra; lra);
             apply Rle_trans with (fac_min p * (cc / K)); [lra|]; apply Rmult_le_compat; try lra; apply Rlt_le, Rdiv_lt_0_compat; lra ]
         | destruct (IHA Rj (tv ++ [tn + w]) (xv ++ [y]) (tn + w) y h' (S n) (HI' Ee) ltac:(lra) Hh') as (tv' & xv' & tn' & F1 & F2);
           [ rewrite S_INR in HA; lra
           | apply Hc'; lra
           | eapply Rle_trans; [|exact HRj]; apply Rmult_le_compat_r; [apply pow_le; lra|]; eapply Rle_trans; [apply Rmin_r|]; lra
           | exists tv', xv', tn'; split; [|intros Hn; apply F2; lia];
             intros fuel Hf; destruct fuel as [|fuel]; [unfold need in Hf; lia|]; rewrite Body; apply F1; unfold need in *; lia ] ] ]).
    + (* rejected, r = 0 *) exfalso. cbn [pow] in Hr. rewrite Rmult_1_r in Hr.
      assert (K * w <= 1) by (apply (Rmult_le_compat_l K) in Hr; [|lra]; rewrite Rinv_r in Hr by lra; exact Hr). lra.
    + (* rejected *)
      assert (Eq : R_eqb e 0 = false) by (destruct (R_eqb e 0) eqn:Q; [apply R_eqb_true in Q; lra|reflexivity]).
      assert (Eh : h' = step_factor p l e * w) by (unfold h'; rewrite Eq; reflexivity).
      pose proof (sf_lower e) as S1. pose proof (sf_reject e Ee) as S2.
      assert (Wk : / K < w). { apply (Rmult_lt_reg_l K); [exact HK|]. rewrite Rinv_r by lra. lra. }
      destruct (IHr tv xv tn xn h' n HI Ht) as (tv' & xv' & tn' & F1 & F2).
      * rewrite Eh. eapply Rle_trans; [exact H1|]. eapply Rle_trans; [exact H2|]. apply Rmult_le_compat; lra.
      * exact HA.
      * apply Hc'. lra.
      * cbn [pow] in Hr. apply Rle_trans with (w * (rho * rho ^ r)); [|exact Hr]. rewrite <- Rmult_assoc. apply Rmult_le_compat_r; [apply pow_le; lra|].
        eapply Rle_trans; [apply Rmin_l|]. rewrite Eh, (Rmult_comm w). apply Rmult_le_compat_r; lra.
      * exists tv', xv', tn'. split; [|exact F2]. intros fuel Hf. destruct fuel as [|fuel]; [unfold need in Hf; lia|]. rewrite Body. apply F1. unfold need in *. lia.
Qed.
End Term.

Lemma nat_ceil x : 0 <= x -> exists N, INR N - 1 < x <= INR N.
Proof.
  intros Hx. exists (Z.to_nat (- Int_part (- x))). destruct (base_Int_part (- x)) as [B1 B2].
  assert (P : (0 <= - Int_part (- x))%Z) by (apply le_IZR; rewrite opp_IZR; lra).
  rewrite INR_IZR_INZ, Z2Nat.id, opp_IZR by exact P. lra.
Qed.
Lemma adapt_solve_terminates (p : @pcontrol R) step q t0 t1 K cap (I : R -> vector R -> Prop) init :
  0 < h_0 p -> 0 < fac p < 1 -> 0 < fac_min p < 1 -> 1 <= fac_max p -> 0 < K -> t0 <= t1 -> (fac_max p <= 1 /\ h_0 p <= cap) \/ t1 - t0 <= cap -> I t0 init ->
  (forall t x h, I t x -> t0 <= t -> 0 < h <= cap -> t + h <= t1 ->
     exists y yh e, step t x h = Ret (y, yh) /\ calc_error p y yh = Ret e /\ 0 <= e <= K * h /\ (e <= 1 -> I (t + h) y)) ->
  exists fuel0 res, (forall fuel, (fuel0 <= fuel)%nat -> adapt_solve p step q fuel t0 t1 init = Ret (Some res)) /\
    ((t1 - t0) / Rmin (h_0 p) (fac_min p * Rpower (fac p) (INR q + 1) / K) <= INR (n_max p) -> exists tv xv, res = Some (tv, xv)).
Proof.
  intros H0 H1 H2 H3 HK Ht Hcap HI Hs. pose proof (hm_pos p q K H0 H1 H2 HK) as Hm. set (hm := Rmin _ _) in *.
  destruct (nat_ceil ((t1 - t0) / hm)) as (A & HA1 & HA2). { apply Rmult_le_pos; [lra|left; now apply Rinv_0_lt_compat]. }
  pose proof (rho_range p H1 H2) as Hr. set (rho := Rmax (fac_min p) (fac p)) in *.
  assert (IK : 0 < / K / (t1 - t0 + 1)) by (apply Rdiv_lt_0_compat; [now apply Rinv_0_lt_compat|lra]).
  destruct (pow_lt_1_zero rho ltac:(rewrite Rabs_pos_eq; lra) _ IK) as (Rj & HR). specialize (HR Rj (le_n _)).
  rewrite Rabs_pos_eq in HR by (apply pow_le; lra).
  assert (HRj : (t1 - t0) * rho ^ Rj <= / K).
  { apply Rle_trans with ((t1 - t0 + 1) * rho ^ Rj); [apply Rmult_le_compat_r; [apply pow_le|]; lra|].
    apply (Rmult_lt_compat_l (t1 - t0 + 1)) in HR; [|lra]. replace ((t1 - t0 + 1) * (/ K / (t1 - t0 + 1))) with (/ K) in HR by (field; lra). lra. }
  destruct (adapt_terminates p step q t0 t1 K I H0 H1 H2 H3 HK cap Hcap Hs Rj HRj A Rj [t0] [init] t0 init (h_0 p) 0 HI ltac:(lra)) as (tv & xv & tn & F1 & F2).
  - apply Rmin_l.
  - apply (Rmult_le_reg_r (/ hm)); [now apply Rinv_0_lt_compat|]. fold hm. rewrite Rmult_assoc, Rinv_r by lra. lra.
  - destruct Hcap as [[_ Hc]|Hc]; [eapply Rle_trans; [apply Rmin_l|exact Hc]|eapply Rle_trans; [apply Rmin_r|exact Hc]].
  - eapply Rle_trans; [|exact HRj]. apply Rmult_le_compat_r; [apply pow_le; lra|apply Rmin_r].
  - exists (need Rj A Rj), (if R_ltb tn t1 then None else Some (tv, xv)). split.
    + intros fuel Hf. unfold adapt_solve. cbn [ltb R_ops]. rewrite (proj2 (R_ltb_false t1 t0) Ht). cbv zeta.
      rewrite of_Z_R, <- INR_IZR_INZ. change (div one (add (INR q) one)) with (1 / (INR q + 1)).
      rewrite F1 by exact Hf. cbn [bind]. destruct (R_ltb tn t1); reflexivity.
    + intros Hn. assert (HAn : (A <= n_max p)%nat). { assert (Q : INR A < INR (n_max p) + 1) by (fold hm in Hn; lra). rewrite <- S_INR in Q. apply INR_lt in Q. lia. }
      rewrite (F2 ltac:(lia)). rewrite (proj2 (R_ltb_false t1 t1) (Rle_refl _)). eauto.
Qed.

(** ** Bounded right-hand sides *)
Lemma err_small (p : @pcontrol R) B m g h St y yh Fm K : (length (tbs2 B) <= length (tb2 B))%nat -> (0 < m)%nat -> 0 < abs_tol p -> 0 <= rel_tol p -> 0 < h ->
  Fm * (sumn (length (tb2 B)) (fun j => Rabs (b_of (tb2 B) j)) + sumn (length (tbs2 B)) (fun j => Rabs (b_of (tbs2 B) j))) <= K * abs_tol p ->
  is_col y m (fun i => g i + sumn (length (tb2 B)) (fun j => St j i * b_of (tb2 B) j) * h) ->
  is_col yh m (fun i => g i + sumn (length (tbs2 B)) (fun j => St j i * b_of (tbs2 B) j) * h) ->
  (forall j, (j < length (tb2 B))%nat -> Rabs (St j 0%nat) <= Fm) -> exists e, calc_error p y yh = Ret e /\ 0 <= e <= K * h.
Proof.
  intros Hbs Hm Ha Hre Hh HK Hy Hyh KB.
  assert (SB : forall (b : list R) n, (n <= length (tb2 B))%nat -> Rabs (sumn n (fun j => St j 0%nat * b_of b j)) <= Fm * sumn n (fun j => Rabs (b_of b j))).
  { intros b n Hnl. rewrite <- sumR_mul_l. apply sumR_abs. intros j Hj. rewrite Rabs_mult. apply Rmult_le_compat_r; [apply Rabs_pos|apply KB; lia]. }
  eexists. split; [rewrite (calc_error_col p y yh m _ _ Hm Hy Hyh); reflexivity|].
  cbn [tsqrt R_pops add sub mul div zero one tabs R_ops].
  set (S1 := sumn (length (tb2 B)) (fun j => St j 0%nat * b_of (tb2 B) j)). set (S2 := sumn (length (tbs2 B)) (fun j => St j 0%nat * b_of (tbs2 B) j)).
  pose proof (SB (tb2 B) (length (tb2 B)) (le_n _)) as B1. fold S1 in B1. pose proof (SB (tbs2 B) (length (tbs2 B)) Hbs) as B2. fold S2 in B2.
  set (y0 := g 0%nat + S1 * h). set (sc := abs_tol p + Rabs y0 * rel_tol p). replace (y0 - (g 0%nat + S2 * h)) with ((S1 - S2) * h) by (unfold y0; ring).
  assert (Hsc : abs_tol p <= sc) by (unfold sc; pose proof (Rabs_pos y0); nra).
  replace ((0 + (S1 - S2) * h / sc * ((S1 - S2) * h / sc)) / 1) with (Rsqr ((S1 - S2) * h / sc)) by (unfold Rsqr; field; lra). rewrite sqrt_Rsqr_abs.
  split; [apply Rabs_pos|]. unfold Rdiv. rewrite Rabs_mult, (Rabs_pos_eq (/ sc)) by (left; apply Rinv_0_lt_compat; lra).
  apply (Rmult_le_reg_r sc); [lra|]. rewrite Rmult_assoc, Rinv_l, Rmult_1_r by lra. rewrite Rabs_mult, (Rabs_pos_eq h) by lra.
  assert (D : Rabs (S1 - S2) <= K * abs_tol p).
  { eapply Rle_trans; [|exact HK]. unfold Rminus. eapply Rle_trans; [apply Rabs_triang|]. rewrite Rabs_Ropp. lra. }
  assert (K0 : 0 <= K). { pose proof (Rabs_pos (S1 - S2)). nra. }
  replace (K * h * sc) with (K * sc * h) by ring. apply Rmult_le_compat_r; [lra|]. eapply Rle_trans; [exact D|]. apply Rmult_le_compat_l; lra.
Qed.
(** The step of an embedded method in terms of its stage values. *)
Lemma step2_stg B f m F t x g h : (1 <= length (tb2 B))%nat -> tableau_ok (ta2 B) (tb2 B) (tc2 B) -> (length (tbs2 B) <= length (tb2 B))%nat ->
  (forall t, computes (f t) m m (F t)) -> is_col x m g ->
  exists y yh St, do_step2 B f t x h = Ret (y, yh) /\ stg m (length (tb2 B)) (a_of (ta2 B)) (c_of (tc2 B)) F t g h St /\
    is_col y m (fun i => g i + sumn (length (tb2 B)) (fun j => St j i * b_of (tb2 B) j) * h) /\
    is_col yh m (fun i => g i + sumn (length (tbs2 B)) (fun j => St j i * b_of (tbs2 B) j) * h).
Proof.
  intros Hs Hok Hbs Hf Hx. assert (Hft : rhs_total f m) by (intros u z k Hz; destruct (Hf u z k Hz) as (v & E & Hv); eauto).
  destruct (do_step2_spec B f m t x g h Hs Hok Hbs Hx Hft) as (y & yh & K & E & [HK0 HK] & Hy & Hyh).
  exists y, yh, K. split; [exact E|]. split; [|auto]. intros j Hj. destruct j as [|j].
  - exists g. split; [intros i Hi; unfold xst; cbn; ring|]. intros i Hi. destruct HK0 as (k0 & E0 & H0).
    destruct (Hf t x g Hx) as (v & E' & Hv). rewrite E0 in E'. injection E' as <-.
    replace (t + c_of (tc2 B) 0%nat * h) with t by (cbn; ring). exact (col_unique _ _ _ _ i H0 Hv Hi).
  - destruct (HK (S j) ltac:(lia)) as (xj & kj & Hxj & E1 & Hk). exists (xst (a_of (ta2 B)) g h K (S j)). split; [reflexivity|]. intros i Hi.
    destruct (Hf (t + c_of (tc2 B) (S j) * h) xj _ Hxj) as (v & E' & Hv). change (f (t + c_of (tc2 B) (S j) * h) xj = Ret kj) in E1. rewrite E1 in E'. injection E' as <-. exact (col_unique _ _ _ _ i Hk Hv Hi).
Qed.
Lemma bounded_step (p : @pcontrol R) B f m F t0 t1 Fm K : (1 <= length (tb2 B))%nat -> tableau_ok (ta2 B) (tb2 B) (tc2 B) -> (length (tbs2 B) <= length (tb2 B))%nat ->
  (forall k, (k < length (tb2 B) - 1)%nat -> 0 <= nth k (tc2 B) 0 <= 1) ->
  (0 < m)%nat -> (forall t, computes (f t) m m (F t)) -> (forall t x, t0 <= t <= t1 -> Rabs (F t x 0%nat) <= Fm) -> 0 < abs_tol p -> 0 <= rel_tol p ->
  Fm * (sumn (length (tb2 B)) (fun j => Rabs (b_of (tb2 B) j)) + sumn (length (tbs2 B)) (fun j => Rabs (b_of (tbs2 B) j))) <= K * abs_tol p ->
  forall t x h, (exists g, is_col x m g) -> t0 <= t -> 0 < h <= t1 - t0 -> t + h <= t1 ->
  exists y yh e, do_step2 B f t x h = Ret (y, yh) /\ calc_error p y yh = Ret e /\ 0 <= e <= K * h /\ (e <= 1 -> exists g, is_col y m g).
Proof.
  intros Hs Hok Hbs Hn Hm Hf HF Ha Hre HK t x h (g & Hx) Ht [Hh _] Hth.
  destruct (step2_stg B f m F t x g h Hs Hok Hbs Hf Hx) as (y & yh & St & E & HSt & Hy & Hyh).
  assert (KB : forall j, (j < length (tb2 B))%nat -> Rabs (St j 0%nat) <= Fm).
  { intros j Hj. destruct (HSt j Hj) as (z & _ & Hz). rewrite (Hz 0%nat Hm). apply HF. destruct j as [|j]; cbn [c_of zero R_ops]; [lra|]. specialize (Hn j ltac:(lia)). nra. }
  destruct (err_small p B m g h St y yh Fm K Hbs Hm Ha Hre Hh HK Hy Hyh KB) as (e & Ee & He).
  exists y, yh, e. split; [exact E|]. split; [exact Ee|]. split; [exact He|]. intros _. eauto.
Qed.
Lemma adaptive_bounded (p : @pcontrol R) B q pp pp' f m F t0 t1 Fm K init :
  In (B, (pp, pp')) embedded_list \/ (B = cash_karp45 /\ pp = 4%nat /\ pp' = 5%nat) ->
  0 < h_0 p -> 0 < fac p < 1 -> 0 < fac_min p < 1 -> 1 <= fac_max p -> 0 < abs_tol p -> 0 <= rel_tol p -> t0 <= t1 -> (0 < m)%nat ->
  (forall t, computes (f t) m m (F t)) -> (forall t x, t0 <= t <= t1 -> Rabs (F t x 0%nat) <= Fm) -> 0 < K ->
  Fm * (sumn (length (tb2 B)) (fun j => Rabs (b_of (tb2 B) j)) + sumn (length (tbs2 B)) (fun j => Rabs (b_of (tbs2 B) j))) <= K * abs_tol p ->
  (exists g, is_col init m g) ->
  exists fuel0 res, (forall fuel, (fuel0 <= fuel)%nat -> adapt_solve p (do_step2 B f) q fuel t0 t1 init = Ret (Some res)) /\
    ((t1 - t0) / Rmin (h_0 p) (fac_min p * Rpower (fac p) (INR q + 1) / K) <= INR (n_max p) -> exists tv xv, res = Some (tv, xv)).
Proof.
  intros HB H0 H1 H2 H3 Ha Hr Ht Hm Hf HF HK HKa Hi. destruct (embedded_ok B pp pp' HB) as (Hs & Hok & Hbs & _).
  apply (adapt_solve_terminates p (do_step2 B f) q t0 t1 K (t1 - t0) (fun _ x => exists g, is_col x m g)); auto; [right; lra|].
  apply (bounded_step p B f m F t0 t1 Fm K); auto.
  intros k Hk. destruct (embedded_nodes B (pp, pp')) as (HL & Hn); [tauto|]. apply Hn. lia.
Qed.
Lemma adaptive_shipped B p p' : In (B, (p, p')) embedded_list \/ (B = cash_karp45 /\ p = 4%nat /\ p' = 5%nat) ->
  forall f m F t0 t1 Y rho L, t0 <= t1 -> (forall t, computes (f t) m m (F t)) ->
  smooth_solution m F t0 t1 (p + 1) Y -> 0 < rho -> lipschitz_near m F t0 t1 (Y 0%nat) rho L ->
  ((3 <= p)%nat -> exists J, smooth_jacobian m F t0 t1 (Y 0%nat) rho (Nat.min p 4 - 2) J) ->
  adaptive_accurate (Nat.min p 4) B f m t0 t1 (Y 0%nat).
Proof.
  intros HB f m F t0 t1 Y rho L Ht Hf HY Hr HL HJ. apply adaptive_of_grids.
  destruct (embedded_ok B p p' HB) as (Hs & Hok & _ & Hp). destruct (embedded_main B p p' HB) as (Hrow & Hord).
  assert (Hn : forall k, (k < length (tb2 B) - 1)%nat -> 0 <= nth k (tc2 B) 0 <= 1).
  { intros k Hk. destruct (embedded_nodes B (p, p')) as (HL' & Hn); [tauto|]. apply Hn. lia. }
  apply (order_le _ _ _ p (Nat.min p 4)) in Hord; [|lia]. apply (smooth_le _ _ _ _ _ (S (Nat.min p 4))) in HY; [|lia].
  destruct (le_lt_dec p 2) as [H2|H2].
  - apply (acc_low (main_tab B) f m (Nat.min p 4) F t0 t1 Y rho L); auto. lia.
  - destruct HJ as (J & HJ); [lia|]. apply (acc_high (main_tab B) f m (Nat.min p 4) F t0 t1 Y rho L) with (J := J); auto. lia.
Qed.

(** ** Convergence with steps that never grow *)
Lemma adaptive_converges B p f m F t0 t1 Y rho L M : (1 <= p)%nat -> (1 <= length (tb2 B))%nat -> tableau_ok (ta2 B) (tb2 B) (tc2 B) -> (length (tbs2 B) <= length (tb2 B))%nat ->
  (forall k, (k < length (tb2 B) - 1)%nat -> 0 <= nth k (tc2 B) 0 <= 1) -> (0 < m)%nat -> t0 <= t1 -> (forall t, computes (f t) m m (F t)) ->
  0 < rho -> 0 <= L -> 0 <= M -> lipschitz_near m F t0 t1 (Y 0%nat) rho L ->
  (forall i t, (i < m)%nat -> t0 <= t <= t1 -> is_derive (Y 0%nat i) t (F t (fun l => Y 0%nat l t) i)) ->
  (forall i t, (i < m)%nat -> t0 <= t <= t1 -> Rabs (F t (fun l => Y 0%nat l t) i) <= M) ->
  accurate_on_grids p (main_tab B) f m t0 t1 (Y 0%nat) -> adaptive_converges_with_order p B f m t0 t1 (Y 0%nat).
Proof.
  intros Hp Hs Hok Hbs Hn Hm Ht Hf Hrho HL0 HM0 HL Hode HyM (C & H & HH & Acc).
  set (s := length (tb2 B)) in *. set (a := a_of (ta2 B)). set (c := c_of (tc2 B)).
  assert (Hc : forall j, (j < s)%nat -> 0 <= c j <= 1) by (intros j Hj; unfold c; destruct j as [|j]; cbn; [lra|]; apply Hn; lia).
  pose proof (hmax_pos s a rho L M Hrho HL0 HM0) as HP. set (H0 := hmax s a rho L M) in *.
  set (W := sumn s (fun j => Rabs (b_of (tb2 B) j)) + sumn (length (tbs2 B)) (fun j => Rabs (b_of (tbs2 B) j))).
  assert (HW : 0 <= W). { unfold W. apply Rplus_le_le_0_compat; apply sumR_nonneg; intros; apply Rabs_pos. }
  pose proof (kmax_pos rho L M Hrho HL0 HM0) as HKm. set (km := kmax rho L M) in *.
  set (C1 := Rabs C + 1). assert (HC1 : 1 <= C1) by (unfold C1; pose proof (Rabs_pos C); lra).
  assert (HCC : C <= C1) by (unfold C1; pose proof (RRle_abs C); lra).
  set (Hb := rho / (4 * C1)). assert (HHb : 0 < Hb) by (apply Rdiv_lt_0_compat; lra).
  exists C1, (km * W + 1), (Rmin H (Rmin H0 Hb)). split; [nra|]. split; [apply Rmin_glb_lt; [exact HH|apply Rmin_glb_lt; [apply HP|exact HHb]]|].
  intros ctl q delta init g0 [Hh0 HhH] Hfac Hfmin Hfmax Ha Hr [Hd HdH] Hinit Hg0.
  assert (HhA : h_0 ctl <= H) by (eapply Rle_trans; [exact HhH|apply Rmin_l]).
  assert (HhB : h_0 ctl <= H0) by (eapply Rle_trans; [exact HhH|]; eapply Rle_trans; [apply Rmin_r|apply Rmin_l]).
  assert (HhC : h_0 ctl <= Hb) by (eapply Rle_trans; [exact HhH|]; eapply Rle_trans; [apply Rmin_r|apply Rmin_r]).
  assert (HdA : delta <= H) by (eapply Rle_trans; [exact HdH|apply Rmin_l]).
  assert (HdC : delta <= Hb) by (eapply Rle_trans; [exact HdH|]; eapply Rle_trans; [apply Rmin_r|apply Rmin_r]).
  assert (Hpow : h_0 ctl ^ p <= h_0 ctl).
  { destruct p as [|q']; [lia|]. cbn [pow]. rewrite <- (Rmult_1_r (h_0 ctl)) at 3. apply Rmult_le_compat_l; [lra|]. rewrite <- (pow1 q'). apply pow_incr. lra. }
  assert (Hpow0 : 0 <= h_0 ctl ^ p) by (apply pow_le; lra).
  assert (Etube : C * (delta + h_0 ctl ^ p) <= rho / 2).
  { apply Rle_trans with (C1 * (Hb + Hb)); [apply Rle_trans with (C1 * (delta + h_0 ctl ^ p)); [apply Rmult_le_compat_r; lra|apply Rmult_le_compat_l; lra]|].
    unfold Hb. apply Req_le. field. lra. }
  set (K := (km * W + 1) / abs_tol ctl). assert (HK : 0 < K) by (apply Rdiv_lt_0_compat; [nra|exact Ha]).
  set (I := fun (t : R) (x : vector R) => exists N tv xv, length tv = S N /\ length xv = S N /\ nth 0 tv 0 = t0 /\ nth N tv 0 = t /\ t <= t1 /\
     nth 0 xv (vzero 0) = init /\ nth N xv (vzero 0) = x /\ (forall i, (i < N)%nat -> 0 < nth (S i) tv 0 - nth i tv 0 <= h_0 ctl) /\
     (forall i, (i < N)%nat -> do_step (main_tab B) f (nth i tv 0) (nth i xv (vzero 0)) (nth (S i) tv 0 - nth i tv 0) = Ret (nth (S i) xv (vzero 0)))).
  assert (IA : forall t x, I t x -> exists g, is_col x m g /\ within m (fun l => g l - Y 0%nat l t) (C * (delta + h_0 ctl ^ p))).
  { intros t x (N & tv & xv & L1 & L2 & T0 & TN & Tle & X0 & XN & St & Fo). rewrite <- TN, <- XN.
    refine (Acc (h_0 ctl) delta N tv xv g0 (conj Hh0 HhA) (conj Hd HdA) L1 L2 T0 _ St _ Hg0 Fo N (le_n _)); [rewrite TN; exact Tle|rewrite X0; exact Hinit]. }
  destruct (adapt_solve_terminates ctl (do_step2 B f) q t0 t1 K (h_0 ctl) I init Hh0 Hfac Hfmin ltac:(lra) HK Ht (or_introl (conj (Req_le _ _ Hfmax) (Rle_refl _)))) as (fuel0 & res & F1 & F2).
  - exists 0%nat, [t0], [init]. repeat split; try reflexivity; try exact Ht; intros; lia.
  - intros t x w HI Ht0 [Hw HwH] Htw. destruct (IA t x HI) as (g & Hx & Hgw).
    destruct (step2_stg B f m F t x g w Hs Hok Hbs Hf Hx) as (y & yh & St & E & HSt & Hy & Hyh). fold s in HSt, Hy. fold a c in HSt.
    assert (W0 : within m (fun l => g l - Y 0%nat l t) (rho / 2)) by (intros l Hl; eapply Rle_trans; [exact (Hgw l Hl)|exact Etube]).
    assert (KB : forall j, (j < s)%nat -> Rabs (St j 0%nat) <= km).
    { intros j Hj. destruct (tube m s a c F t0 t1 (Y 0%nat) rho L M Hrho HL0 HM0 HL Hode HyM Hc t w g St Ht0 ltac:(split; [exact Hw|]; fold H0; lra) Htw W0 HSt j Hj) as (_ & Q). exact (Q 0%nat Hm). }
    assert (HKW : km * W <= K * abs_tol ctl).
    { unfold K. replace ((km * W + 1) / abs_tol ctl * abs_tol ctl) with (km * W + 1) by (field; lra). lra. }
    destruct (err_small ctl B m g w St y yh km K Hbs Hm Ha Hr Hw HKW Hy Hyh KB) as (e & Ee & He).
    exists y, yh, e. split; [exact E|]. split; [exact Ee|]. split; [exact He|]. intros _.
    destruct HI as (N & tv & xv & L1 & L2 & T0 & TN & Tle & X0 & XN & Ss & Fo).
    exists (S N), (tv ++ [t + w]), (xv ++ [y]). rewrite !app_length, L1, L2. cbn [length].
    assert (NT : forall i, (i <= N)%nat -> nth i (tv ++ [t + w]) 0 = nth i tv 0) by (intros; apply app_nth1; lia).
    assert (NX : forall i, (i <= N)%nat -> nth i (xv ++ [y]) (vzero 0) = nth i xv (vzero 0)) by (intros; apply app_nth1; lia).
    assert (ET : nth (S N) (tv ++ [t + w]) 0 = t + w) by (rewrite <- L1; apply nth_middle).
    assert (EX : nth (S N) (xv ++ [y]) (vzero 0) = y) by (rewrite <- L2; apply nth_middle).
    split; [lia|]. split; [lia|]. split; [rewrite NT by lia; exact T0|]. split; [exact ET|]. split; [exact Htw|]. split; [rewrite NX by lia; exact X0|]. split; [exact EX|].
    split; intros i Hi; (destruct (Nat.eq_dec i N) as [->|]; [rewrite ET, ?EX, NT, ?NX, TN, ?XN by lia|rewrite !NT, ?NX by lia; first [apply Ss|apply Fo]; lia]).
    + lra.
    + replace (t + w - t) with w by ring. exact (do_step2_main _ _ _ _ _ _ _ E).
  - exists fuel0, res. split; [exact F1|]. intros Hnm.
    assert (HmK : Rmin (h_0 ctl) (fac_min ctl * Rpower (fac ctl) (INR q + 1) / K) = Rmin (h_0 ctl) (fac_min ctl * Rpower (fac ctl) (INR q + 1) * abs_tol ctl / (km * W + 1))).
    { f_equal. unfold K. field. split; nra. }
    destruct F2 as (tv & xv & ->); [rewrite HmK; exact Hnm|]. exists tv, xv. split; [reflexivity|]. specialize (F1 fuel0 (le_n _)).
    pose proof (steps_le_h0 ctl (do_step2 B f) q fuel0 t0 t1 init tv xv Hh0 ltac:(lra) ltac:(lra) ltac:(lra) ltac:(lra) F1) as SL.
    destruct (adapt_solve_spec ctl (do_step2 B f) q fuel0 t0 t1 init _ Hh0 ltac:(lra) ltac:(lra) F1) as (_ & n & tv' & xv' & xn & tn & Hrun & <- & <- & ->).
    destruct Hrun as (L1 & L2 & Hnn & HT0 & Hx0 & Htn & Hxn & Hle & Hinc & Hfol).
    exists n. split; [exact L1|]. split; [exact L2|]. split; [exact Htn|]. intros i Hi.
    assert (S1 : forall k, (k < n)%nat -> 0 < nth (S k) tv 0 - nth k tv 0 <= h_0 ctl) by (intros k Hk; split; [specialize (Hinc k ltac:(lia)); lra|apply SL; lia]).
    assert (S2 : forall k, (k < n)%nat -> do_step (main_tab B) f (nth k tv 0) (nth k xv (vzero 0)) (nth (S k) tv 0 - nth k tv 0) = Ret (nth (S k) xv (vzero 0)))
      by (intros k Hk; destruct (Hfol k ltac:(lia)) as (xh & e & E1 & _); exact (do_step2_main _ _ _ _ _ _ _ E1)).
    destruct (Acc (h_0 ctl) delta n tv xv g0 (conj Hh0 HhA) (conj Hd HdA) L1 L2 HT0 ltac:(rewrite Htn; lra) S1 ltac:(rewrite Hx0; exact Hinit) Hg0 S2 i Hi) as (g & Hg & Hgw).
    exists g. split; [exact Hg|]. intros l Hl. eapply Rle_trans; [exact (Hgw l Hl)|]. apply Rmult_le_compat_r; lra.
Qed.
Lemma adaptive_converges_shipped B p p' : In (B, (p, p')) embedded_list \/ (B = cash_karp45 /\ p = 4%nat /\ p' = 5%nat) ->
  forall f m F t0 t1 Y rho L, (0 < m)%nat -> t0 <= t1 -> (forall t, computes (f t) m m (F t)) ->
  smooth_solution m F t0 t1 (p + 1) Y -> 0 < rho -> lipschitz_near m F t0 t1 (Y 0%nat) rho L ->
  ((3 <= p)%nat -> exists J, smooth_jacobian m F t0 t1 (Y 0%nat) rho (Nat.min p 4 - 2) J) ->
  adaptive_converges_with_order (Nat.min p 4) B f m t0 t1 (Y 0%nat).
Proof.
  intros HB f m F t0 t1 Y rho L Hm Ht Hf HY Hr HL HJ.
  destruct (embedded_ok B p p' HB) as (Hs & Hok & Hbs & Hp). destruct (embedded_main B p p' HB) as (Hrow & Hord).
  assert (Hn : forall k, (k < length (tb2 B) - 1)%nat -> 0 <= nth k (tc2 B) 0 <= 1).
  { intros k Hk. destruct (embedded_nodes B (p, p')) as (HL' & Hn); [tauto|]. apply Hn. lia. }
  apply (order_le _ _ _ p (Nat.min p 4)) in Hord; [|lia]. apply (smooth_le _ _ _ _ _ (S (Nat.min p 4))) in HY; [|lia].
  assert (A : accurate_on_grids (Nat.min p 4) (main_tab B) f m t0 t1 (Y 0%nat)).
  { destruct (le_lt_dec p 2) as [H2|H2].
    - apply (acc_low (main_tab B) f m (Nat.min p 4) F t0 t1 Y rho L); auto. lia.
    - destruct HJ as (J & HJ); [lia|]. apply (acc_high (main_tab B) f m (Nat.min p 4) F t0 t1 Y rho L) with (J := J); auto. lia. }
  destruct HY as (HF & HD & M & HB').
  apply (adaptive_converges B (Nat.min p 4) f m F t0 t1 Y rho (Rabs L) (Rabs M)); auto using Rabs_pos, lip_abs; try lia.
  - intros i t Hi Hti. rewrite <- HF by assumption. apply HD; auto. lia.
  - intros i t Hi Hti. rewrite <- HF by assumption. eapply Rle_trans; [apply (HB' 1%nat); auto; lia|apply RRle_abs].
Qed.

(** Methods of order five *)
Lemma acc_shipped_5 B p' : In (B, (5%nat, p')) embedded_list ->
  forall f m F t0 t1 Y rho L J Hs2, t0 <= t1 -> (forall t, computes (f t) m m (F t)) ->
  smooth_solution m F t0 t1 6 Y -> 0 < rho -> lipschitz_near m F t0 t1 (Y 0%nat) rho L ->
  smooth_jacobian m F t0 t1 (Y 0%nat) rho 3 J -> smooth_hessian m F t0 t1 (Y 0%nat) rho (J 0%nat) Hs2 ->
  accurate_on_grids 5 (main_tab B) f m t0 t1 (Y 0%nat).
Proof.
  intros HB f m F t0 t1 Y rho L J Hs2 Ht Hf HY Hr HL HJ HH.
  destruct (embedded_ok B 5 p' (or_introl HB)) as (Hs & Hok & _ & Hp). destruct (embedded_main B 5 p' (or_introl HB)) as (Hrow & Hord).
  assert (Hn : forall k, (k < length (tb2 B) - 1)%nat -> 0 <= nth k (tc2 B) 0 <= 1).
  { intros k Hk. destruct (embedded_nodes B (5%nat, p')) as (HL' & Hn); [tauto|]. apply Hn. lia. }
  apply (acc_5 (main_tab B) f m 5 F t0 t1 Y rho L) with (J := J) (Hs2 := Hs2); auto.
Qed.
Lemma adaptive_converges_5 B p' : In (B, (5%nat, p')) embedded_list ->
  forall f m F t0 t1 Y rho L J Hs2, (0 < m)%nat -> t0 <= t1 -> (forall t, computes (f t) m m (F t)) ->
  smooth_solution m F t0 t1 6 Y -> 0 < rho -> lipschitz_near m F t0 t1 (Y 0%nat) rho L ->
  smooth_jacobian m F t0 t1 (Y 0%nat) rho 3 J -> smooth_hessian m F t0 t1 (Y 0%nat) rho (J 0%nat) Hs2 ->
  adaptive_accurate 5 B f m t0 t1 (Y 0%nat) /\ adaptive_converges_with_order 5 B f m t0 t1 (Y 0%nat).
Proof.
  intros HB f m F t0 t1 Y rho L J Hs2 Hm Ht Hf HY Hr HL HJ HH.
  pose proof (acc_shipped_5 B p' HB f m F t0 t1 Y rho L J Hs2 Ht Hf HY Hr HL HJ HH) as A. split; [now apply adaptive_of_grids|].
  destruct (embedded_ok B 5 p' (or_introl HB)) as (Hs & Hok & Hbs & Hp).
  assert (Hn : forall k, (k < length (tb2 B) - 1)%nat -> 0 <= nth k (tc2 B) 0 <= 1).
  { intros k Hk. destruct (embedded_nodes B (5%nat, p')) as (HL' & Hn); [tauto|]. apply Hn. lia. }
  destruct HY as (HF & HD & M & HB').
  apply (adaptive_converges B 5 f m F t0 t1 Y rho (Rabs L) (Rabs M)); auto using Rabs_pos, lip_abs; try lia.
  - intros i t Hi Hti. rewrite <- HF by assumption. apply HD; auto. lia.
  - intros i t Hi Hti. rewrite <- HF by assumption. eapply Rle_trans; [apply (HB' 1%nat); auto; lia|apply RRle_abs].
Qed.

(** ** Example: x' = 1/(1+x^2) *)
Definition bell_rhs (_ : R) (x : vector R) : outcome (vector R) := let! v := vvget x 0 in Ret (mkMatrix 1 1 [1 / (1 + v * v)]).
Definition bell_F (_ : R) (g : nat -> R) (_ : nat) : R := 1 / (1 + g 0%nat * g 0%nat).
Lemma bell_computes t : computes (bell_rhs t) 1 1 (bell_F t).
Proof.
  intros x g Hx. unfold bell_rhs. rewrite (col_get x 1 g 0 Hx) by lia. cbn [bind]. eexists. split; [reflexivity|].
  eapply is_mat_ext; [|exact (is_col_list 0 1 [1 / (1 + g 0%nat * g 0%nat)] eq_refl)]. intros i j Hi Hj. replace i with 0%nat by lia. reflexivity.
Qed.
Lemma bell_bounded t x : Rabs (bell_F t x 0%nat) <= 1.
Proof.
  unfold bell_F. assert (1 <= 1 + x 0%nat * x 0%nat) by nra. rewrite Rabs_pos_eq by (left; apply Rdiv_lt_0_compat; lra).
  apply (Rmult_le_reg_r (1 + x 0%nat * x 0%nat)); [lra|]. unfold Rdiv. rewrite Rmult_assoc, Rinv_l by lra. lra.
Qed.
