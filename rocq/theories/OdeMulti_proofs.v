(** Non-termination of the adaptive driver, Adams-Bashforth and the solver named BDF. *)
From Coq Require Import QArith Qreals Arith Lia List Bool ZArith Reals Lra.
From Verif Require Import Outcome Scalar RealOps Matrix_model Vector_model Matrix_spec Matrix_proofs Vector_proofs Sums Ode_model Ode_spec Ode_proofs OdeOrder_proofs OdeConseq_proofs OdeSolve_proofs Ortho_proofs.
Import ListNotations.
Local Close Scope Q_scope.
Local Open Scope R_scope.

(** ** A problem on which every step is rejected *)
Definition recip_rhs : R -> vector R -> outcome (vector R) :=
  fun t _ => vnew_column 1 [if R_eqb t 0 then 0 else 1 / t].
Lemma recip_rhs_val t x : exists y, recip_rhs t x = Ret y /\ is_col y 1 (fun _ => if R_eqb t 0 then 0 else 1 / t).
Proof.
  destruct (vnew_column_spec 1 [if R_eqb t 0 then 0 else 1 / t] 0 eq_refl) as (y & E & H).
  exists y. split; [exact E|]. eapply col_ext; [|exact H]. intros i Hi. destruct i; [reflexivity|lia].
Qed.
Lemma recip_total : rhs_total recip_rhs 1.
Proof. intros t x g _. destruct (recip_rhs_val t x) as (y & E & H). eauto. Qed.

Lemma fehlberg12_recip x x0 h : 0 < h -> is_col x 1 (fun _ => x0) ->
  exists r rs, do_step2 fehlberg12 recip_rhs 0 x h = Ret (r, rs) /\
    is_col r 1 (fun _ => x0 + 1021 / 512) /\ is_col rs 1 (fun _ => x0 + 1020 / 512).
Proof.
  intros Hh Hx.
  destruct (do_step2_spec fehlberg12 recip_rhs 1 0 x (fun _ => x0) h) as (r & rs & K & E & HR & Hr & Hrs);
    [simpl; lia|split; vm_compute; lia|simpl; lia|exact Hx|exact recip_total|].
  destruct HR as ((k0 & E0 & H0) & HR). cbn [tb2 fehlberg12 length] in HR.
  assert (K0 : K 0%nat 0%nat = 0).
  { destruct (recip_rhs_val 0 x) as (y & Ey & Hy). assert (y = k0) by congruence. subst y.
    pose proof (is_mat_entry_unique _ _ _ _ _ 0%nat 0%nat H0 Hy ltac:(lia) ltac:(lia)) as Hu. cbn beta in Hu. rewrite Hu.
    replace (R_eqb 0 0) with true by (symmetry; apply R_eqb_true; reflexivity). reflexivity. }
  assert (Kj : forall j c, (0 < j < 3)%nat -> c_of (tc2 (fehlberg12 : tableau2 R)) j = c -> 0 < c -> K j 0%nat = 1 / (c * h)).
  { intros j c Hj Ec Hc. destruct (HR j Hj) as (xj & kj & _ & Ej & Hkj).
    rewrite Ec in Ej. cbn [add mul R_ops] in Ej. rewrite Rplus_0_l in Ej.
    destruct (recip_rhs_val (c * h) xj) as (y & Ey & Hy). assert (y = kj) by congruence. subst y.
    pose proof (is_mat_entry_unique _ _ _ _ _ 0%nat 0%nat Hkj Hy ltac:(lia) ltac:(lia)) as Hu. cbn beta in Hu. rewrite Hu.
    destruct (R_eqb (c * h) 0) eqn:Eq; [apply R_eqb_true in Eq; nra|reflexivity]. }
  assert (K1 : K 1%nat 0%nat = 2 / h).
  { rewrite (Kj 1%nat (1/2)); [field; lra|lia|cbn [c_of tc2 fehlberg12 nth]; rewrite lit_R; reflexivity|lra]. }
  assert (K2 : K 2%nat 0%nat = 1 / h).
  { rewrite (Kj 2%nat 1); [field; lra|lia|reflexivity|lra]. }
  exists r, rs. split; [exact E|]. split.
  - eapply col_ext; [|exact Hr]. intros i Hi. replace i with 0%nat by lia. cbn beta.
    cbn [tb2 fehlberg12 length sumn b_of nth]. rewrite K0, K1, K2, !lit_R. cbn [add mul zero R_ops]. field. lra.
  - eapply col_ext; [|exact Hrs]. intros i Hi. replace i with 0%nat by lia. cbn beta.
    cbn [tbs2 fehlberg12 length sumn b_of nth]. rewrite K0, K1, K2, !lit_R. cbn [add mul zero R_ops]. field. lra.
Qed.

Lemma recip_never (p : pcontrol) (x : vector R) l t1 : 0 < t1 -> (0 < n_max p)%nat ->
  0 < fac_min p -> 0 < fac_max p -> 0 < abs_tol p < 1 / 512 ->
  is_col x 1 (fun _ => - (1021 / 512)) ->
  forall fuel h tv xv, 0 < h ->
  adapt_loop p (do_step2 fehlberg12 recip_rhs) l t1 fuel tv xv 0 x h 0 = Ret None.
Proof.
  intros Ht Hn Hf1 Hf2 Ha Hx. induction fuel as [|fuel IH]; intros h tv xv Hh; cbn [adapt_loop].
  - apply Nat.ltb_lt in Hn. rewrite Hn. cbn [ltb R_ops]. rewrite (proj2 (R_ltb_true 0 t1) Ht). reflexivity.
  - apply Nat.ltb_lt in Hn as Hn'. rewrite Hn'. cbn [ltb R_ops]. rewrite (proj2 (R_ltb_true 0 t1) Ht). cbn [andb].
    cbv zeta. rewrite tmin_R. cbn [sub R_ops].
    assert (Hm : 0 < Rmin h (t1 - 0)) by (apply Rmin_glb_lt; lra).
    set (w := Rmin h (t1 - 0)) in *.
    destruct (fehlberg12_recip x _ w Hm Hx) as (r & rs & E & Hr & Hrs). rewrite E. cbn [bind fst snd].
    rewrite (calc_error_col p r rs 1 _ _ ltac:(lia) Hr Hrs). cbn [bind].
    set (e := tsqrt _).
    assert (He : 1 < e).
    { unfold e. cbn [tsqrt R_pops add sub mul div zero one tabs R_ops].
      replace (- (1021 / 512) + 1021 / 512) with 0 by lra. rewrite Rabs_R0.
      replace (- (1021 / 512) + 1020 / 512) with (- (1 / 512)) by lra.
      replace (abs_tol p + 0 * rel_tol p) with (abs_tol p) by ring.
      replace ((0 + (0 - - (1 / 512)) / abs_tol p * ((0 - - (1 / 512)) / abs_tol p)) / 1)
        with (((1 / 512) / abs_tol p) * ((1 / 512) / abs_tol p)) by (field; lra).
      assert (H1 : 1 < 1 / 512 / abs_tol p).
      { apply (Rmult_lt_reg_r (abs_tol p)); [lra|]. replace (1 / 512 / abs_tol p * abs_tol p) with (1 / 512) by (field; lra). lra. }
      rewrite sqrt_square by lra. exact H1. }
    replace (leb e one) with false by (symmetry; apply R_leb_false; exact He).
    apply IH. destruct (negb _); [|exact Hm]. cbn [mul R_ops]. apply Rmult_lt_0_compat; [|exact Hm].
    apply step_factor_pos; assumption.
Qed.

(** ** Adams-Bashforth *)
Section AB.
Variable f : R -> vector R -> outcome (vector R).
Variable m : nat.
Hypothesis Hf : rhs_total f m.

(** Values along a history. *)
Definition hist (tv : list R) (xv : list (vector R)) (X F : nat -> nat -> R) : Prop :=
  length tv = length xv /\
  forall i, (i < length xv)%nat -> is_col (nth i xv (vzero 0)) m (X i) /\
    exists y, f (nth i tv 0) (nth i xv (vzero 0)) = Ret y /\ is_col y m (F i).

Lemma ab_term_spec tv xv X F n i c : hist tv xv X F -> length xv = S n -> (i <= n)%nat ->
  exists w, ab_term f tv xv n i c = Ret w /\ is_col w m (fun k => F (n - i)%nat k * c).
Proof.
  intros (HL & H) Hn Hi. unfold ab_term. rewrite usub_ok by lia. cbn [bind].
  rewrite (vget_ok xv (n - i) (vzero 0)) by lia. cbn [bind]. rewrite (vget_ok tv (n - i) 0) by lia. cbn [bind].
  destruct (H (n - i)%nat ltac:(lia)) as (_ & y & Ey & Hy). rewrite Ey. cbn [bind].
  eexists. split; [reflexivity|]. exact (vmul_scalar_col y m _ c Hy).
Qed.

Lemma ab_sum_spec tv xv X F n : hist tv xv X F -> length xv = S n -> forall cs i acc g,
  (i + length cs <= S n)%nat -> is_col acc m g ->
  exists r, ab_sum f tv xv n i cs acc = Ret r /\
    is_col r m (fun k => g k + sumn (length cs) (fun l => nth l cs 0 * F (n - (i + l))%nat k)).
Proof.
  intros Hh Hn. induction cs as [|c cs IH]; intros i acc g Hi Ha; cbn [ab_sum].
  - exists acc. split; [reflexivity|]. eapply col_ext; [|exact Ha]. intros. simpl. ring.
  - cbn [length] in Hi. destruct (ab_term_spec tv xv X F n i c Hh Hn ltac:(lia)) as (w & Ew & Hw). rewrite Ew. cbn [bind].
    destruct (vadd_col acc w m _ _ Ha Hw) as (u & Eu & Hu). rewrite Eu. cbn [bind].
    destruct (IH (S i) u _ ltac:(lia) Hu) as (r & Er & Hr). exists r. split; [exact Er|].
    eapply col_ext; [|exact Hr]. intros k Hk. cbn beta. cbn [length]. rewrite sumR_first. cbn [nth add mul R_ops].
    rewrite Nat.add_0_r. rewrite (sumR_ext _ (fun l => nth l cs 0 * F (n - (i + S l))%nat k) (fun l => nth l cs 0 * F (n - (S i + l))%nat k)).
    + ring.
    + intros l Hl. do 3 f_equal. lia.
Qed.

Lemma ab_stepk_spec c0 cs tv xv X F n h : hist tv xv X F -> length xv = S n -> (length cs <= n)%nat ->
  exists r, ab_stepk (c0 :: cs) f tv xv h = Ret r /\
    is_col r m (fun k => X n k + h * sumn (S (length cs)) (fun l => nth l (c0 :: cs) 0 * F (n - l)%nat k)).
Proof.
  intros Hh Hn Hl. unfold ab_stepk. rewrite usub_ok by lia. cbn [bind]. replace (length xv - 1)%nat with n by lia.
  rewrite (vget_ok xv n (vzero 0)) by lia. cbn [bind].
  destruct (ab_term_spec tv xv X F n 0 c0 Hh Hn ltac:(lia)) as (w & Ew & Hw). rewrite Ew. cbn [bind].
  destruct (ab_sum_spec tv xv X F n Hh Hn cs 1 w _ ltac:(lia) Hw) as (s & Es & Hs). rewrite Es. cbn [bind].
  destruct Hh as (HL & H). destruct (H n ltac:(lia)) as (HX & _).
  destruct (vadd_col _ (vmul_scalar s h) m _ _ HX (vmul_scalar_col _ _ _ h Hs)) as (r & Er & Hr).
  exists r. split; [exact Er|]. eapply col_ext; [|exact Hr]. intros k Hk. cbn beta.
  rewrite (sumR_first (length cs)). cbn [nth add mul R_ops]. rewrite Nat.sub_0_r.
  change (fun l : nat => nth l cs 0 * F (n - (1 + l))%nat k) with (fun l : nat => nth l cs 0 * F (n - S l)%nat k). ring.
Qed.

Lemma ab_step1_spec tv xv X F n h : hist tv xv X F -> length xv = S n ->
  exists r, ab_step1 f tv xv h = Ret r /\ is_col r m (fun k => X n k + h * F n k).
Proof.
  intros (HL & H) Hn. unfold ab_step1. rewrite usub_ok by lia. cbn [bind]. replace (length xv - 1)%nat with n by lia.
  rewrite (vget_ok xv n (vzero 0)) by lia. cbn [bind]. rewrite (vget_ok tv n 0) by lia. cbn [bind].
  destruct (H n ltac:(lia)) as (HX & y & Ey & Hy). rewrite Ey. cbn [bind].
  destruct (vadd_col _ (vmul_scalar y h) m _ _ HX (vmul_scalar_col _ _ _ h Hy)) as (r & Er & Hr).
  exists r. split; [exact Er|]. eapply col_ext; [|exact Hr]. intros k Hk. cbn [add mul R_ops]. ring.
Qed.

(** The coefficients used by the code. *)
Definition ab_beta (j l : nat) : R :=
  nth l (match j with
         | 1 => [1]
         | 2 => [3/2; -1/2]
         | 3 => [23/12; -16/12; 5/12]
         | 4 => [55/24; -59/24; 37/24; -9/24]
         | 5 => [1901/720; -2774/720; 2616/720; -1274/720; 251/720]
         | _ => []
         end) 0.
Lemma ab_beta_weights j : (1 <= j <= 5)%nat -> adams_weights j (ab_beta j).
Proof.
  intros Hj q Hq.
  assert (Hj' : (j = 1 \/ j = 2 \/ j = 3 \/ j = 4 \/ j = 5)%nat) by lia.
  destruct Hj' as [->|[->|[->|[->| ->]]]];
  (do 5 (destruct q as [|q]; [first [lia|cbn; field]|]); try lia).
Qed.

Lemma ab_step_spec j tv xv X F n h : (1 <= j <= 5)%nat -> hist tv xv X F -> length xv = S n -> (j <= S n)%nat ->
  exists r, ab_step j f tv xv h = Ret r /\
    is_col r m (fun k => X n k + h * sumn j (fun l => ab_beta j l * F (n - l)%nat k)).
Proof.
  intros Hj Hh Hn Hl.
  assert (Hj' : (j = 1 \/ j = 2 \/ j = 3 \/ j = 4 \/ j = 5)%nat) by lia.
  destruct Hj' as [->|[->|[->|[->| ->]]]]; cbn [ab_step].
  - destruct (ab_step1_spec tv xv X F n h Hh Hn) as (r & Er & Hr). exists r. split; [exact Er|].
    eapply col_ext; [|exact Hr]. intros k Hk. cbn [sumn ab_beta nth add zero R_ops]. rewrite Nat.sub_0_r. ring.
  - destruct (ab_stepk_spec (lit 3 2) [lit (-1) 2] tv xv X F n h Hh Hn ltac:(simpl; lia)) as (r & Er & Hr).
    exists r. split; [exact Er|]. eapply col_ext; [|exact Hr]. intros k Hk. cbn [length sumn nth ab_beta add zero R_ops]. rewrite !lit_R. reflexivity.
  - destruct (ab_stepk_spec (lit 23 12) [lit (-16) 12; lit 5 12] tv xv X F n h Hh Hn ltac:(simpl; lia)) as (r & Er & Hr).
    exists r. split; [exact Er|]. eapply col_ext; [|exact Hr]. intros k Hk. cbn [length sumn nth ab_beta add zero R_ops]. rewrite !lit_R. reflexivity.
  - destruct (ab_stepk_spec (lit 55 24) [lit (-59) 24; lit 37 24; lit (-9) 24] tv xv X F n h Hh Hn ltac:(simpl; lia)) as (r & Er & Hr).
    exists r. split; [exact Er|]. eapply col_ext; [|exact Hr]. intros k Hk. cbn [length sumn nth ab_beta add zero R_ops]. rewrite !lit_R. reflexivity.
  - destruct (ab_stepk_spec (lit 1901 720) [lit (-2774) 720; lit 2616 720; lit (-1274) 720; lit 251 720] tv xv X F n h Hh Hn ltac:(simpl; lia)) as (r & Er & Hr).
    exists r. split; [exact Er|]. eapply col_ext; [|exact Hr]. intros k Hk. cbn [length sumn nth ab_beta add zero R_ops]. rewrite !lit_R. reflexivity.
Qed.

(** ** The driver, for an arbitrary family of multistep formulas *)
Variable step : nat -> @rhs R -> list R -> list (vector R) -> R -> outcome (vector R).
Variable kmax : nat.
Variable beta : nat -> nat -> R.
Variable width : nat -> nat.
Hypothesis Hstep : forall j tv xv X F n h, (1 <= j <= kmax)%nat -> hist tv xv X F -> length xv = S n -> (j <= S n)%nat ->
  exists r, step j f tv xv h = Ret r /\
    is_col r m (fun k => X n k + h * sumn (width j) (fun l => beta j l * F (n - l)%nat k)).
Variables t0 t1 h : R.
Hypothesis Ht : t0 <= t1.
Hypothesis Hh : 0 < h.
Variable k : nat.
Hypothesis Hk : (1 <= k <= kmax)%nat.
Let g := grid t0 t1 h.

(** The recurrence between the entries up to index [i]. *)
Definition recur (X F : nat -> nat -> R) (n : nat) : Prop :=
  forall i, (1 <= i <= n)%nat -> let j := Nat.min i k in
    forall c, (c < m)%nat -> X i c = X (i - 1)%nat c + (g i - g (i - 1)%nat) * sumn (width j) (fun l => beta j l * F (i - 1 - l)%nat c).

Definition ms_inv (init : vector R) (n : nat) (st : list R * list (vector R) * R) : Prop :=
  let '(tv, xv, tn) := st in
  tv = map g (seq 0 (S n)) /\ length xv = S n /\ tn = g n /\ nth 0 xv (vzero 0) = init /\
  exists X F, hist tv xv X F /\ recur X F n.

Lemma hist_snoc tv xv X F tn xn Xn : hist tv xv X F -> is_col xn m Xn ->
  exists F', hist (tv ++ [tn]) (xv ++ [xn]) (updK X (length xv) Xn) F' /\ (forall i, (i < length xv)%nat -> F' i = F i).
Proof.
  intros (HL & H) Hx. destruct (Hf tn xn Xn Hx) as (y & Fn & Ey & Hy).
  exists (updK F (length xv) Fn). split; [|intros i Hi; unfold updK; destruct (Nat.eqb_spec i (length xv)); [lia|reflexivity]].
  split; [rewrite !app_length; simpl; lia|]. intros i Hi. rewrite app_length in Hi. simpl in Hi. unfold updK.
  destruct (Nat.eqb_spec i (length xv)) as [->|Hne].
  - replace (nth (length xv) (tv ++ [tn]) 0) with tn by (rewrite <- HL, nth_app_last; reflexivity). rewrite nth_app_last. split; [exact Hx|]. exists y. auto.
  - rewrite !nth_app_old by lia. apply H. lia.
Qed.

Lemma ms_push_spec init n j st : ms_inv init n st -> j = Nat.min (S n) k ->
  exists st', ms_push step f h t1 j st = Ret st' /\ ms_inv init (S n) st'.
Proof.
  destruct st as [[tv xv] tn]. intros (Htv & Hxv & Htn & H0 & X & F & Hhist & Hrec) Hj.
  unfold ms_push. rewrite tmin_R. cbn [sub add R_ops]. subst tn. cbv zeta.
  destruct (Hstep j tv xv X F n (Rmin h (t1 - g n)) ltac:(lia) Hhist Hxv ltac:(lia)) as (r & Er & Hr).
  rewrite Er. cbn [bind]. eexists. split; [reflexivity|].
  rewrite (grid_step t0 t1 h Hh n : g n + Rmin h (t1 - g n) = g (S n)).
  rewrite (grid_h t0 t1 h Hh n : Rmin h (t1 - g n) = g (S n) - g n) in Hr.
  destruct (hist_snoc tv xv X F (g (S n)) r _ Hhist Hr) as (F' & Hh' & HF').
  unfold ms_inv. split; [rewrite (map_seq_S g (S n)), Htv; reflexivity|]. split; [rewrite app_length; simpl; lia|].
  split; [reflexivity|]. split; [rewrite nth_app_old by lia; exact H0|].
  eexists. exists F'. split; [exact Hh'|].
  intros i Hi j' c Hc. unfold updK. rewrite Hxv in *.
  destruct (Nat.eqb_spec i (S n)) as [->|Hne].
  - replace (S n - 1)%nat with n by lia. destruct (Nat.eqb_spec n (S n)); [lia|].
    replace j' with j by (unfold j'; congruence). f_equal. f_equal. apply sumR_ext. intros l Hl. rewrite HF' by lia. reflexivity.
  - destruct (Nat.eqb_spec (i - 1) (S n)); [lia|]. rewrite (Hrec i ltac:(lia) c Hc). f_equal. f_equal.
    apply sumR_ext. intros l Hl. rewrite HF' by lia. reflexivity.
Qed.

Lemma ms_start init G0 : is_col init m G0 -> ms_inv init 0 ([t0], [init], t0).
Proof.
  intros Hi. unfold ms_inv. split; [simpl; f_equal; symmetry; apply grid_0; exact Ht|].
  split; [reflexivity|]. split; [symmetry; apply grid_0; exact Ht|]. split; [reflexivity|].
  destruct (Hf t0 init G0 Hi) as (y & Fn & Ey & Hy). exists (fun _ => G0), (fun _ => Fn). split.
  - split; [reflexivity|]. intros i Hlt. simpl in Hlt. replace i with 0%nat by lia. split; [exact Hi|]. exists y. auto.
  - intros i Hlt. lia.
Qed.

Definition close (n : nat) : bool := negb (ltb (lit 1 10000000000) (tabs (sub (g n) t1))).

Lemma ms_loop_spec init : forall d n st fuel, ms_inv init n st -> (k - 1 <= n)%nat -> (d <= fuel)%nat ->
  close (n + d) = true -> exists n' tv xv, (n <= n' <= n + d)%nat /\ ms_loop step f h t1 fuel k st = Ret (Some (tv, xv)) /\
    ms_inv init n' (tv, xv, g n') /\ close n' = true /\ (forall i, (n <= i < n')%nat -> close i = false).
Proof.
  induction d as [|d IH]; intros n st fuel Hinv Hkn Hfuel Hcl.
  - rewrite Nat.add_0_r in Hcl. destruct st as [[tv xv] tn]. exists n, tv, xv. split; [lia|].
    pose proof Hinv as (_ & _ & Htn & _). unfold close in Hcl. apply negb_true_iff in Hcl. 
    destruct fuel; cbn [ms_loop]; rewrite Htn, Hcl; (split; [reflexivity|]); subst tn;
      (split; [exact Hinv|]); (split; [unfold close; rewrite Hcl; reflexivity|intros; lia]).
  - destruct st as [[tv xv] tn]. pose proof Hinv as (_ & _ & Htn & _).
    destruct (close n) eqn:Ecl.
    + exists n, tv, xv. split; [lia|]. unfold close in Ecl. apply negb_true_iff in Ecl.
      destruct fuel; cbn [ms_loop]; rewrite Htn, Ecl; (split; [reflexivity|]); subst tn;
      (split; [exact Hinv|]); (split; [unfold close; rewrite Ecl; reflexivity|intros; lia]).
    + destruct fuel as [|fuel]; [lia|].
      destruct (ms_push_spec init n k (tv, xv, tn) Hinv ltac:(lia)) as (st' & Est & Hinv').
      destruct (IH (S n) st' fuel Hinv' ltac:(lia) ltac:(lia)) as (n' & tv' & xv' & H1 & H2 & H3 & H4 & H5).
      { replace (S n + d)%nat with (n + S d)%nat by lia. exact Hcl. }
      exists n', tv', xv'. split; [lia|]. split; [|split; [exact H3|split; [exact H4|]]].
      * cbn [ms_loop]. unfold close in Ecl. apply negb_false_iff in Ecl. rewrite Htn, Ecl. rewrite <- Htn, Est. exact H2.
      * intros i Hi. destruct (Nat.eq_dec i n) as [->|]; [exact Ecl|apply H5; lia].
Qed.

Lemma close_spec n : close n = true <-> t1 - g n <= 1 / 10000000000.
Proof.
  unfold close. rewrite negb_true_iff. cbn [ltb tabs sub R_ops]. rewrite R_ltb_false, lit_R.
  pose proof (grid_in t0 t1 h Ht Hh n : t0 <= g n <= t1). rewrite Rabs_left1 by lra. split; intros; lra.
Qed.

Lemma ms_solve_spec init G0 N : INR N - 1 < (t1 - t0) / h <= INR N -> is_col init m G0 ->
  exists M tv xv, (k - 1 <= M <= Nat.max N (k - 1))%nat /\
    (forall fuel, (Nat.max N (k - 1) <= fuel)%nat -> ms_solve step f h t1 fuel k t0 init = Ret (Some (tv, xv))) /\
    length tv = S M /\ length xv = S M /\ (forall i, (i <= M)%nat -> nth i tv 0 = g i) /\
    t1 - g M <= 1 / 10000000000 /\ (forall i, (k - 1 <= i < M)%nat -> 1 / 10000000000 < t1 - g i) /\
    nth 0 xv (vzero 0) = init /\ exists X F, hist tv xv X F /\ recur X F M.
Proof.
  intros HN Hi.
  edestruct (for_loop_ind (fun i st => ms_inv init (i - 1) st) (ms_push step f h t1) 1 k ([t0], [init], t0)) as (st & Est & Hst);
    [lia|exact (ms_start init G0 Hi)| |].
  { intros i st Hik Hst. destruct (ms_push_spec init (i - 1) i st Hst ltac:(lia)) as (st' & E' & H').
    exists st'. split; [exact E'|]. replace (S i - 1)%nat with (S (i - 1)) by lia. exact H'. }
  set (d := (Nat.max N (k - 1) - (k - 1))%nat).
  assert (Hcl : close (k - 1 + d) = true).
  { apply close_spec. rewrite (grid_N t0 t1 h Hh N HN : forall i, (N <= i)%nat -> g i = t1) by lia. lra. }
  destruct (ms_loop_spec init d (k - 1)%nat st (Nat.max N (k - 1)) Hst ltac:(lia) ltac:(lia) Hcl)
    as (M & tv & xv & HM & Eloop & Hinv & HclM & Hncl).
  exists M, tv, xv. split; [lia|]. split.
  { intros fuel Hfuel. unfold ms_solve. cbn [ltb R_ops]. replace (R_ltb t1 t0) with false by (symmetry; apply R_ltb_false; exact Ht).
    rewrite Est. cbn [bind].
    destruct (ms_loop_spec init d (k - 1)%nat st fuel Hst ltac:(lia) ltac:(lia) Hcl) as (M' & tv' & xv' & HM' & Eloop' & Hinv' & HclM' & Hncl').
    rewrite Eloop'. do 2 f_equal.
    (* the same stopping index and hence the same lists *)
    assert (HMM : M = M').
    { destruct (Nat.lt_trichotomy M M') as [Hlt|[Heq|Hlt]]; [|exact Heq|].
      - rewrite (Hncl' M) in HclM by lia. discriminate.
      - rewrite (Hncl M') in HclM' by lia. discriminate. }
    subst M'.
    assert (Hmono : forall fu fu' s r, ms_loop step f h t1 fu k s = Ret (Some r) -> (fu <= fu')%nat -> ms_loop step f h t1 fu' k s = Ret (Some r)).
    { clear. induction fu as [|fu IH]; intros fu' [[tv xv] tn] r H Hle.
      - cbn [ms_loop] in H. destruct fu'; cbn [ms_loop]; destruct (ltb _ _); try discriminate; exact H.
      - destruct fu' as [|fu']; [lia|]. cbn [ms_loop] in *. destruct (ltb _ _); [|exact H].
        destruct (ms_push _ _ _ _ _ _); cbn [bind] in *; [|discriminate]. apply IH; [exact H|lia]. }
    rewrite (Hmono _ fuel _ _ Eloop) in Eloop' by lia. congruence. }
  destruct Hinv as (Htv & Hxv & _ & H0 & X & F & Hhist & Hrec).
  split; [rewrite Htv, map_length, seq_length; reflexivity|]. split; [exact Hxv|].
  split; [intros i Hlt; rewrite Htv; apply nth_grid_list; lia|].
  split; [apply close_spec; exact HclM|].
  split; [intros i Hlt; specialize (Hncl i ltac:(lia)); apply Rnot_le_lt; intro Hc; apply close_spec in Hc; congruence|].
  split; [exact H0|]. exists X, F. auto.
Qed.
End AB.

(** ** Nodes of the shipped tableaux *)
Lemma nodes_by_check (c : list R) (cQ : list Q) : c = map Q2R cQ -> forallb (fun q => Qle_bool 0 q && Qle_bool q 1) cQ = true ->
  forall k, (k < length c)%nat -> 0 <= nth k c 0 <= 1.
Proof.
  intros -> H k Hk. rewrite map_length in Hk. rewrite forallb_forall in H.
  specialize (H (nth k cQ 0%Q) (nth_In _ _ Hk)). apply andb_true_iff in H as (H1 & H2).
  apply Qle_bool_iff in H1, H2. apply Qle_Rle in H1, H2.
  pose proof (nth_h cQ k) as E. change (@zero Q Qr_ops) with 0%Q in E. change (@zero R R_ops) with 0 in E. rewrite E.
  replace (Q2R 0) with 0 in H1 by (unfold Q2R; simpl; lra). replace (Q2R 1) with 1 in H2 by (unfold Q2R; simpl; lra). lra.
Qed.
Lemma fixed_nodes B p : In (B, p) fixed_list -> (length (tb B) - 1 <= length (tc B))%nat /\
  forall k, (k < length (tc B))%nat -> 0 <= nth k (tc B) 0 <= 1.
Proof.
  intros H. cbn [In fixed_list] in H.
  repeat match type of H with _ \/ _ => destruct H as [H|H] end; try contradiction; injection H as <- <-;
  (split; [simpl; lia|]);
  (eapply nodes_by_check; [first [exact (f_equal tc m_euler)|exact (f_equal tc m_midpoint)|exact (f_equal tc m_heun2)
   |exact (f_equal tc m_ralston2)|exact (f_equal tc m_heun3)|exact (f_equal tc m_kutta3)|exact (f_equal tc m_ralston3)
   |exact (f_equal tc m_ssprk3)|exact (f_equal tc m_rk4)|exact (f_equal tc m_kutta38)]|vm_compute; reflexivity]).
Qed.
Lemma embedded_nodes B p : In (B, p) embedded_list \/ B = cash_karp45 -> (length (tb2 B) - 1 <= length (tc2 B))%nat /\
  forall k, (k < length (tc2 B))%nat -> 0 <= nth k (tc2 B) 0 <= 1.
Proof.
  intros H. cbn [In embedded_list] in H.
  repeat match type of H with _ \/ _ => destruct H as [H|H] end; try contradiction; try (injection H as <- <-); try subst B;
  (split; [simpl; lia|]);
  (eapply nodes_by_check; [first [exact (f_equal tc2 m_fehlberg12)|exact (f_equal tc2 m_bs23)|exact (f_equal tc2 m_fehlberg45)
   |exact (f_equal tc2 m_dp)|exact (f_equal tc2 m_ck45)]|vm_compute; reflexivity]).
Qed.

(** ** The solver named BDF *)
Lemma bdf_step_ab f m j tv xv X F n h : (1 <= j <= 6)%nat -> hist f m tv xv X F -> length xv = S n -> (j <= S n)%nat ->
  exists r, bdf_step j f tv xv h = Ret r /\
    is_col r m (fun k => X n k + h * sumn (Nat.min j 5) (fun l => ab_beta (Nat.min j 5) l * F (n - l)%nat k)).
Proof.
  intros Hj Hh Hn Hl. destruct (Nat.eq_dec j 6) as [->|Hne].
  - exact (ab_step_spec f m 5 tv xv X F n h ltac:(lia) Hh Hn ltac:(lia)).
  - replace (Nat.min j 5) with j by lia.
    assert (E : bdf_step j f tv xv h = ab_step j f tv xv h) by (do 6 (destruct j as [|j]; [reflexivity|]); lia).
    rewrite E. apply ab_step_spec; [lia|assumption|assumption|assumption].
Qed.

Lemma hist_id m tv xv X F : hist (fun _ y => Ret y) m tv xv X F -> forall i c, (i < length xv)%nat -> (c < m)%nat -> F i c = X i c.
Proof.
  intros (_ & H) i c Hi Hc. destruct (H i Hi) as (HX & y & E & HF). injection E as <-.
  exact (is_mat_entry_unique _ _ _ _ _ c 0%nat HF HX Hc ltac:(lia)).
Qed.

Lemma bdf_relation_fails k alpha init : (1 <= k <= 6)%nat -> bdf_weights k alpha -> is_col init 1 (fun _ => 1) ->
  exists fuel0 tv xv X, (forall fuel, (fuel0 <= fuel)%nat ->
      bdf_solve (fun _ y => Ret y) 1 10 fuel k 0 init = Ret (Some (tv, xv))) /\
    (k < length xv)%nat /\
    (forall i, (i <= k)%nat -> nth i tv 0 = INR i /\ is_col (nth i xv (vzero 0)) 1 (fun _ => X i)) /\
    X 0%nat = 1 /\ sumn (S k) (fun l => alpha l * X (k - l)%nat) <> 1 * X k.
Proof.
  intros Hk Ha Hi.
  assert (Htot : rhs_total (fun (_ : R) (y : vector R) => Ret y) 1) by (intros t x g Hx; eauto).
  assert (HN : INR 10 - 1 < (10 - 0) / 1 <= INR 10) by (cbn [INR]; lra).
  destruct (ms_solve_spec _ 1 Htot bdf_step 6 (fun j => ab_beta (Nat.min j 5)) (fun j => Nat.min j 5)
    (bdf_step_ab _ 1) 0 10 1 ltac:(lra) ltac:(lra) k Hk init _ 10 HN Hi)
    as (M & tv & xv & HM & Hsolve & Ltv & Lxv & Hgrid & Hend & _ & H0 & X & F & Hhist & Hrec).
  assert (Hg : forall i, (i <= 10)%nat -> grid 0 10 1 i = INR i).
  { intros i Hle. apply le_INR in Hle. cbn [INR] in Hle. unfold grid. rewrite Rmin_left; lra. }
  assert (HkM : (k <= M)%nat).
  { destruct (Nat.le_gt_cases k M) as [|Hlt]; [assumption|exfalso].
    rewrite Hg in Hend by lia. assert (Hm5 : (M <= 5)%nat) by lia. apply le_INR in Hm5. cbn [INR] in Hm5. lra. }
  assert (HX0 : X 0%nat 0%nat = 1).
  { destruct Hhist as (_ & Hh). destruct (Hh 0%nat ltac:(lia)) as (HX & _). rewrite H0 in HX.
    exact (is_mat_entry_unique _ _ _ _ _ 0%nat 0%nat HX Hi ltac:(lia) ltac:(lia)). }
  assert (HR : forall i, (1 <= i <= k)%nat -> X i 0%nat = X (i - 1)%nat 0%nat +
     sumn (Nat.min (Nat.min i k) 5) (fun l => ab_beta (Nat.min (Nat.min i k) 5) l * X (i - 1 - l)%nat 0%nat)).
  { intros i Hlt. rewrite (Hrec i ltac:(lia) 0%nat ltac:(lia)). rewrite !Hg by lia.
    assert (E : INR i - INR (i - 1) = 1) by (rewrite minus_INR by lia; cbn [INR]; lra). rewrite E, Rmult_1_l.
    f_equal. apply sumR_ext. intros l Hl. rewrite (hist_id 1 tv xv X F Hhist) by lia. reflexivity. }
  exists (Nat.max 10 (k - 1)), tv, xv, (fun i => X i 0%nat). split; [exact Hsolve|]. split; [lia|]. split.
  { intros i Hle. split; [rewrite Hgrid by lia; apply Hg; lia|]. destruct Hhist as (_ & Hh). destruct (Hh i ltac:(lia)) as (HX & _).
    eapply col_ext; [|exact HX]. intros c Hc. replace c with 0%nat by lia. reflexivity. }
  split; [exact HX0|]. cbv beta.
  clear - Hk Ha HX0 HR. unfold bdf_weights in Ha.
  set (x := fun i => X i 0%nat) in *. change (X 0%nat 0%nat) with (x 0%nat) in HX0.
  assert (HR' : forall i, (1 <= i <= k)%nat -> x i = x (i - 1)%nat +
     sumn (Nat.min (Nat.min i k) 5) (fun l => ab_beta (Nat.min (Nat.min i k) 5) l * x (i - 1 - l)%nat)) by exact HR.
  change (sumn (S k) (fun l => alpha l * x (k - l)%nat) <> 1 * x k). clearbody x. clear HR X. 
  assert (Hk' : (k = 1 \/ k = 2 \/ k = 3 \/ k = 4 \/ k = 5 \/ k = 6)%nat) by lia.
  assert (Hq : forall q, (q <= k)%nat -> sumn (S k) (fun l => alpha l * (- INR l) ^ q) = if (q =? 1)%nat then 1 else 0) by exact Ha.
  clear Ha.
  pose proof (HR' 1%nat) as R1. pose proof (HR' 2%nat) as R2. pose proof (HR' 3%nat) as R3.
  pose proof (HR' 4%nat) as R4. pose proof (HR' 5%nat) as R5. pose proof (HR' 6%nat) as R6.
  pose proof (Hq 0%nat) as Q0. pose proof (Hq 1%nat) as Q1. pose proof (Hq 2%nat) as Q2. pose proof (Hq 3%nat) as Q3.
  pose proof (Hq 4%nat) as Q4. pose proof (Hq 5%nat) as Q5. pose proof (Hq 6%nat) as Q6.
  clear HR' Hq.
  destruct Hk' as [->|[->|[->|[->|[->| ->]]]]];
  repeat match goal with
  | H : (?a <= ?b <= ?c)%nat -> _ = _ |- _ => first [specialize (H ltac:(lia))| clear H]
  | H : (?a <= ?b)%nat -> _ = _ |- _ => first [specialize (H ltac:(lia))| clear H]
  end;
  cbn [Nat.min Nat.sub Nat.eqb sumn ab_beta nth INR pow add zero R_ops] in *;
  intro E; cbn [Nat.min Nat.sub Nat.eqb sumn ab_beta nth INR pow add zero R_ops] in E;
  rewrite ?HX0 in *;
  try match goal with H : x 1%nat = _ |- _ => rewrite ?H in * end;
  try match goal with H : x 2%nat = _ |- _ => rewrite ?H in * end;
  try match goal with H : x 3%nat = _ |- _ => rewrite ?H in * end;
  try match goal with H : x 4%nat = _ |- _ => rewrite ?H in * end;
  try match goal with H : x 5%nat = _ |- _ => rewrite ?H in * end;
  try match goal with H : x 6%nat = _ |- _ => rewrite ?H in * end;
  lra.
Qed.

Lemma bdf_step_eq {T} {O : Ops T} (k : nat) : (k <= 5)%nat -> bdf_step k = ab_step k.
Proof. intros H. do 6 (destruct k as [|k]; [reflexivity|]). lia. Qed.
Lemma bdf_is_ab (T : Type) (O : Ops T) f h t1 fuel k t0 init : (k <= 5)%nat ->
  bdf_solve f h t1 fuel k t0 init = ab_solve f h t1 fuel k t0 init.
Proof.
  intros Hk. unfold bdf_solve, ab_solve, ms_solve. destruct (ltb t1 t0); [reflexivity|].
  assert (E : forall j st, (j <= 5)%nat -> ms_push bdf_step f h t1 j st = ms_push ab_step f h t1 j st).
  { intros j [[tv xv] tn] Hj. unfold ms_push. rewrite (bdf_step_eq j Hj). reflexivity. }
  rewrite (for_loop_ext (ms_push bdf_step f h t1) (ms_push ab_step f h t1)) by (intros; apply E; lia).
  destruct (for_loop _ _ _ _) as [st|]; cbn [bind]; [|reflexivity].
  revert st. induction fuel as [|fuel IH]; intros [[tv xv] tn]; cbn [ms_loop]; [reflexivity|].
  rewrite E by exact Hk. destruct (ltb _ _); [|reflexivity]. destruct (ms_push _ _ _ _ _ _); cbn [bind]; [apply IH|reflexivity].
Qed.
