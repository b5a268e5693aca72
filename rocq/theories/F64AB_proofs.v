(** The Adams-Bashforth solver in binary64 against its exact recurrence. *)
From Coq Require Import Arith List Bool Lia ZArith Reals Lra Psatz SpecFloat.
From Flocq Require Import Core IEEE754.BinarySingleNaN.
From Verif Require Import Outcome Scalar RealOps Matrix_model Vector_model Int_model Ode_model Matrix_spec Ode_spec Optim_spec OdeConv_spec OdeConv_proofs F64Euler_proofs Matrix_proofs Vector_proofs Sums Ode_proofs OdeSolve_proofs
  OdeOrder_proofs OdeMulti_proofs OdeMultiConv_proofs
  F64_spec F64Flocq F64Err_proofs F64Grid_proofs F64Ode_spec F64Euler_proofs F64RK_proofs F64RKTab_proofs F64Multi_proofs F64AB_spec.
Import ListNotations.
Local Open Scope R_scope.
#[local] Existing Instance Hprec53.

(** Equal up to the sign of a zero. *)
Definition sim (a b : f64) : Prop := a = b \/ (exists s, a = S754_zero s) /\ (exists s, b = S754_zero s).
Lemma sim_add a b c : sim a b -> sim (add a c) (add b c).
Proof.
  intros [->|((s & ->) & (s' & ->))]; [left; reflexivity|]. destruct c as [sc|sc| |sc mc ec].
  - right. split; destruct s, s', sc; eexists; reflexivity.
  - left. reflexivity.
  - left. reflexivity.
  - left. reflexivity.
Qed.
Lemma sim_zero a : sim a (add zero a).
Proof. destruct a as [s|s| |s mm e]; [right; split; [eexists; reflexivity|destruct s; eexists; reflexivity]|left; reflexivity|left; reflexivity|left; reflexivity]. Qed.
Lemma sim_val a b : sim a b -> fvalid b -> ffin b = true -> fvalid a /\ ffin a = true /\ fval a = fval b.
Proof. intros [->|((s & ->) & (s' & ->))] V F; auto. Qed.

(** The coefficients in binary64. *)
Definition ab64 (j : nat) : list f64 := match j with 2 => ab2 | 3 => ab3 | 4 => ab4 | 5 => ab5 | _ => [] end.
Lemma ab64_close j l : (2 <= j <= 5)%nat -> (l < j)%nat -> close64 (nth l (ab64 j) zero) (ab_beta j l).
Proof.
  intros Hj Hl. assert (Hj' : (j = 2 \/ j = 3 \/ j = 4 \/ j = 5)%nat) by lia.
  destruct Hj' as [->|[->|[->| ->]]]; cases_lt l; cbn [ab64 ab2 ab3 ab4 ab5 ab_beta]; cl.
Qed.

Lemma nth_map_seq {A} (g : nat -> A) n i d : (i < n)%nat -> nth i (map g (seq 0 n)) d = g i.
Proof. intros H. rewrite (nth_indep _ d (g 0%nat)) by (rewrite map_length, seq_length; exact H). rewrite map_nth, seq_nth by exact H. reflexivity. Qed.

(** ** Structure of a run *)
Section Hist.
Variable f : f64 -> vector f64 -> outcome (vector f64).
Variable m : nat.
Hypothesis Hf : rhs_total f m.

Definition fhist (tv : list f64) (xv : list (vector f64)) (X F : nat -> nat -> f64) : Prop :=
  length tv = length xv /\
  forall i, (i < length xv)%nat -> is_col (nth i xv (mkMatrix 0 0 [])) m (X i) /\
    exists y, f (nth i tv zero) (nth i xv (mkMatrix 0 0 [])) = Ret y /\ is_col y m (F i).

Lemma fab_term tv xv X F n i c : fhist tv xv X F -> length xv = S n -> (i <= n)%nat ->
  exists w, ab_term f tv xv n i c = Ret w /\ is_col w m (fun k => mul (F (n - i)%nat k) c).
Proof.
  intros (HL & H) Hn Hi. unfold ab_term. rewrite usub_ok by lia. cbn [bind].
  rewrite (vget_ok xv (n - i) (mkMatrix 0 0 [])) by lia. cbn [bind]. rewrite (vget_ok tv (n - i) zero) by lia. cbn [bind].
  destruct (H (n - i)%nat ltac:(lia)) as (_ & y & Ey & Hy). rewrite Ey. cbn [bind].
  eexists. split; [reflexivity|]. exact (vmul_scalar_col y m _ c Hy).
Qed.

Lemma fab_sum tv xv X F n c : fhist tv xv X F -> length xv = S n -> forall cs i acc g,
  (i + length cs <= S n)%nat -> (forall l, (l < length cs)%nat -> nth l cs zero = c (i + l)%nat) -> is_col acc m g ->
  (forall k, (k < m)%nat -> sim (g k) (sumn i (fun l => mul (F (n - l)%nat k) (c l)))) ->
  exists r g', ab_sum f tv xv n i cs acc = Ret r /\ is_col r m g' /\
    forall k, (k < m)%nat -> sim (g' k) (sumn (i + length cs) (fun l => mul (F (n - l)%nat k) (c l))).
Proof.
  intros Hh Hn. induction cs as [|c0 cs IH]; intros i acc g Hi Hc Ha Hs; cbn [ab_sum].
  - exists acc, g. split; [reflexivity|]. split; [exact Ha|]. cbn [length]. rewrite Nat.add_0_r. exact Hs.
  - cbn [length] in Hi, Hc. destruct (fab_term tv xv X F n i c0 Hh Hn ltac:(lia)) as (w & Ew & Hw). rewrite Ew. cbn [bind].
    destruct (vadd_col acc w m _ _ Ha Hw) as (u & Eu & Hu). rewrite Eu. cbn [bind].
    destruct (IH (S i) u (fun i0 => add (g i0) (mul (F (n - i)%nat i0) c0)) ltac:(lia)) as (r & g' & Er & Hr & Hg').
    + intros l Hl. specialize (Hc (S l) ltac:(lia)). cbn [nth] in Hc. rewrite Hc. f_equal. lia.
    + exact Hu.
    + intros k Hk. cbn [sumn]. specialize (Hc 0%nat ltac:(lia)). cbn [nth] in Hc. rewrite Nat.add_0_r in Hc. rewrite <- Hc. apply sim_add. apply Hs. exact Hk.
    + exists r, g'. split; [exact Er|]. split; [exact Hr|]. intros k Hk. specialize (Hg' k Hk). cbn [length]. replace (i + S (length cs))%nat with (S i + length cs)%nat by lia. exact Hg'.
Qed.

(** The sum of a step with j terms. *)
Definition step_sum (j n : nat) (F : nat -> nat -> f64) (c : nat) (q : f64) : Prop :=
  (j = 1%nat /\ q = F n c) \/ ((2 <= j <= 5)%nat /\ sim q (sumn j (fun l => mul (F (n - l)%nat c) (nth l (ab64 j) zero)))).

Lemma fab_stepk c0 cs tv xv X F n h : fhist tv xv X F -> length xv = S n -> (length cs <= n)%nat ->
  exists r g', ab_stepk (c0 :: cs) f tv xv h = Ret r /\ is_col r m g' /\
    forall k, (k < m)%nat -> exists q, g' k = add (X n k) (mul q h) /\ sim q (sumn (S (length cs)) (fun l => mul (F (n - l)%nat k) (nth l (c0 :: cs) zero))).
Proof.
  intros Hh Hn Hl. unfold ab_stepk. rewrite usub_ok by lia. cbn [bind]. replace (length xv - 1)%nat with n by lia.
  rewrite (vget_ok xv n (mkMatrix 0 0 [])) by lia. cbn [bind].
  destruct (fab_term tv xv X F n 0 c0 Hh Hn ltac:(lia)) as (w & Ew & Hw). rewrite Ew. cbn [bind].
  destruct (fab_sum tv xv X F n (fun l => nth l (c0 :: cs) zero) Hh Hn cs 1 w _ ltac:(lia) ltac:(intros; reflexivity) Hw) as (s & g & Es & Hs & Hg).
  { intros k Hk. cbn [sumn nth]. apply sim_zero. }
  rewrite Es. cbn [bind]. pose proof Hh as (HL & H). destruct (H n ltac:(lia)) as (HX & _).
  destruct (vadd_col _ (vmul_scalar s h) m _ _ HX (vmul_scalar_col _ _ _ h Hs)) as (r & Er & Hr).
  exists r, (fun i => add (X n i) (mul (g i) h)). split; [exact Er|]. split; [exact Hr|]. intros k Hk. exists (g k). split; [reflexivity|exact (Hg k Hk)].
Qed.

Lemma fab_step j tv xv X F n h : (1 <= j <= 5)%nat -> fhist tv xv X F -> length xv = S n -> (j <= S n)%nat ->
  exists r g', ab_step j f tv xv h = Ret r /\ is_col r m g' /\ forall k, (k < m)%nat -> exists q, g' k = add (X n k) (mul q h) /\ step_sum j n F k q.
Proof.
  intros Hj Hh Hn Hl. unfold step_sum.
  assert (Hj' : (j = 1 \/ j = 2 \/ j = 3 \/ j = 4 \/ j = 5)%nat) by lia.
  destruct Hj' as [->|[->|[->|[->| ->]]]]; cbn [ab_step].
  - unfold ab_step1. rewrite usub_ok by lia. cbn [bind]. replace (length xv - 1)%nat with n by lia.
    pose proof Hh as (HL & H). rewrite (vget_ok xv n (mkMatrix 0 0 [])) by lia. cbn [bind]. rewrite (vget_ok tv n zero) by lia. cbn [bind].
    destruct (H n ltac:(lia)) as (HX & y & Ey & Hy). rewrite Ey. cbn [bind].
    destruct (vadd_col _ (vmul_scalar y h) m _ _ HX (vmul_scalar_col _ _ _ h Hy)) as (r & Er & Hr).
    exists r. eexists. split; [exact Er|]. split; [exact Hr|]. intros k Hk. exists (F n k). split; [reflexivity|]. left. auto.
  - destruct (fab_stepk (lit 3 2) [lit (-1) 2] tv xv X F n h Hh Hn ltac:(simpl; lia)) as (r & g' & Er & Hr & Hg).
    exists r, g'. split; [exact Er|]. split; [exact Hr|]. intros k Hk. destruct (Hg k Hk) as (q & E & S). exists q. split; [exact E|]. right. split; [lia|exact S].
  - destruct (fab_stepk (lit 23 12) [lit (-16) 12; lit 5 12] tv xv X F n h Hh Hn ltac:(simpl; lia)) as (r & g' & Er & Hr & Hg).
    exists r, g'. split; [exact Er|]. split; [exact Hr|]. intros k Hk. destruct (Hg k Hk) as (q & E & S). exists q. split; [exact E|]. right. split; [lia|exact S].
  - destruct (fab_stepk (lit 55 24) [lit (-59) 24; lit 37 24; lit (-9) 24] tv xv X F n h Hh Hn ltac:(simpl; lia)) as (r & g' & Er & Hr & Hg).
    exists r, g'. split; [exact Er|]. split; [exact Hr|]. intros k Hk. destruct (Hg k Hk) as (q & E & S). exists q. split; [exact E|]. right. split; [lia|exact S].
  - destruct (fab_stepk (lit 1901 720) [lit (-2774) 720; lit 2616 720; lit (-1274) 720; lit 251 720] tv xv X F n h Hh Hn ltac:(simpl; lia)) as (r & g' & Er & Hr & Hg).
    exists r, g'. split; [exact Er|]. split; [exact Hr|]. intros k Hk. destruct (Hg k Hk) as (q & E & S). exists q. split; [exact E|]. right. split; [lia|exact S].
Qed.

Variables t0 t1 h : f64.
Variable k : nat.
Hypothesis Hk : (1 <= k <= 5)%nat.
Let g (i : nat) : f64 := Nat.iter i (fnext h t1) t0.

Definition frecur (X F : nat -> nat -> f64) (n : nat) : Prop :=
  forall i, (i < n)%nat -> forall c, (c < m)%nat -> exists q, X (S i) c = add (X i c) (mul q (tmin h (sub t1 (g i)))) /\ step_sum (Nat.min (S i) k) i F c q.

Definition fms_inv (init : vector f64) (n : nat) (st : list f64 * list (vector f64) * f64) : Prop :=
  let '(tv, xv, tn) := st in
  tv = map g (seq 0 (S n)) /\ length xv = S n /\ tn = g n /\ nth 0 xv (mkMatrix 0 0 []) = init /\
  exists X F, fhist tv xv X F /\ frecur X F n.

Lemma fhist_snoc tv xv X F tn xn Xn : fhist tv xv X F -> is_col xn m Xn ->
  exists F', fhist (tv ++ [tn]) (xv ++ [xn]) (updK X (length xv) Xn) F' /\ (forall i, (i < length xv)%nat -> F' i = F i).
Proof.
  intros (HL & H) Hx. destruct (Hf tn xn Xn Hx) as (y & Fn & Ey & Hy).
  exists (updK F (length xv) Fn). split; [|intros i Hi; unfold updK; destruct (Nat.eqb_spec i (length xv)); [lia|reflexivity]].
  split; [rewrite !app_length; simpl; lia|]. intros i Hi. rewrite app_length in Hi. simpl in Hi. unfold updK.
  destruct (Nat.eqb_spec i (length xv)) as [->|Hne].
  - replace (nth (length xv) (tv ++ [tn]) zero) with tn by (rewrite <- HL, nth_app_last; reflexivity). rewrite nth_app_last. split; [exact Hx|]. exists y. auto.
  - rewrite !nth_app_old by lia. apply H. lia.
Qed.

Lemma step_sum_ext j n F F' c q : (forall i, (i <= n)%nat -> F' i = F i) -> step_sum j n F c q -> step_sum j n F' c q.
Proof.
  intros H [(-> & ->)|(Hj & S)]; [left; rewrite H by lia; auto|]. right. split; [exact Hj|].
  erewrite (sumn_ext j _ (fun l => mul (F (n - l)%nat c) (nth l (ab64 j) zero))); [exact S|]. intros l Hl. cbv beta. rewrite H by lia. reflexivity.
Qed.

Lemma fms_push init n j st : fms_inv init n st -> j = Nat.min (S n) k ->
  exists st', ms_push ab_step f h t1 j st = Ret st' /\ fms_inv init (S n) st'.
Proof.
  destruct st as [[tv xv] tn]. intros (Htv & Hxv & Htn & H0 & X & F & Hhist & Hrec) Hj.
  unfold ms_push. subst tn. cbv zeta. set (s := tmin h (sub t1 (g n))).
  destruct (fab_step j tv xv X F n s ltac:(lia) Hhist Hxv ltac:(lia)) as (r & gr & Er & Hr & Hq).
  rewrite Er. cbn [bind]. eexists. split; [reflexivity|].
  destruct (fhist_snoc tv xv X F (g (S n)) r gr Hhist Hr) as (F' & Hh' & HF').
  unfold fms_inv. change (add (g n) s) with (g (S n)). split; [rewrite (map_seq_S g (S n)), Htv; reflexivity|]. split; [rewrite app_length; simpl; lia|].
  split; [reflexivity|]. split; [rewrite nth_app_old by lia; exact H0|].
  exists (updK X (length xv) gr), F'. split; [exact Hh'|].
  intros i Hi c Hc. unfold updK. rewrite Hxv in *. destruct (Nat.eqb_spec i (S n)); [lia|].
  destruct (Nat.eqb_spec (S i) (S n)) as [E|Hne].
  - injection E as ->. destruct (Hq c Hc) as (q & E1 & E2). exists q. split; [exact E1|]. rewrite <- Hj. apply (step_sum_ext j n F F' c q); [|exact E2]. intros i Hi'. apply HF'. lia.
  - destruct (Hrec i ltac:(lia) c Hc) as (q & E1 & E2). exists q. split; [exact E1|]. apply (step_sum_ext _ i F F' c q); [|exact E2]. intros i' Hi'. apply HF'. lia.
Qed.

Lemma fms_start init G0 : is_col init m G0 -> fms_inv init 0 ([t0], [init], t0).
Proof.
  intros Hi. unfold fms_inv. split; [reflexivity|]. split; [reflexivity|]. split; [reflexivity|]. split; [reflexivity|].
  destruct (Hf t0 init G0 Hi) as (y & Fn & Ey & Hy). exists (fun _ => G0), (fun _ => Fn). split.
  - split; [reflexivity|]. intros i Hlt. simpl in Hlt. replace i with 0%nat by lia. split; [exact Hi|]. exists y. auto.
  - intros i Hlt. lia.
Qed.

Lemma fms_startup init G0 : is_col init m G0 -> exists st, for_loop 1 k (ms_push ab_step f h t1) ([t0], [init], t0) = Ret st /\ fms_inv init (k - 1) st.
Proof.
  intros Hi. edestruct (for_loop_ind (fun i st => fms_inv init (i - 1) st) (ms_push ab_step f h t1) 1 k ([t0], [init], t0)) as (st & Est & Hst);
    [lia|exact (fms_start init G0 Hi)| |].
  { intros i st Hik Hst. destruct (fms_push init (i - 1) i st Hst ltac:(lia)) as (st' & E' & H').
    exists st'. split; [exact E'|]. replace (S i - 1)%nat with (S (i - 1)) by lia. exact H'. }
  exists st. auto.
Qed.

(** The loop never panics, and what it returns is a run. *)
Lemma fms_loop init : forall fuel n st, fms_inv init n st -> (k - 1 <= n)%nat ->
  exists r, ms_loop ab_step f h t1 fuel k st = Ret r /\
    forall tv xv, r = Some (tv, xv) -> exists N, (n <= N)%nat /\ fms_inv init N (tv, xv, g N).
Proof.
  induction fuel as [|fuel IH]; intros n [[tv xv] tn] Hst Hn; cbn [ms_loop]; destruct (ltb _ _).
  - exists None. split; [reflexivity|discriminate].
  - eexists. split; [reflexivity|]. intros tv' xv' E. injection E as <- <-. exists n. split; [lia|]. pose proof Hst as (_ & _ & Et & _). rewrite <- Et. exact Hst.
  - destruct (fms_push init n k _ Hst ltac:(lia)) as (st' & E & Hst'). rewrite E. cbn [bind].
    destruct (IH (S n) st' Hst' ltac:(lia)) as (r & Er & Hr). exists r. split; [exact Er|]. intros tv' xv' E'. destruct (Hr tv' xv' E') as (N & HN & HI). exists N. split; [lia|exact HI].
  - eexists. split; [reflexivity|]. intros tv' xv' E. injection E as <- <-. exists n. split; [lia|]. pose proof Hst as (_ & _ & Et & _). rewrite <- Et. exact Hst.
Qed.

(** It stops at the first time that is close to the end. *)
Lemma fms_loop_close init : forall d fuel n st, fms_inv init n st -> (k - 1 <= n)%nat -> (d <= fuel)%nat ->
  ltb (lit 1 10000000000) (tabs (sub (g (n + d)) t1)) = false ->
  exists N tv xv, (n <= N <= n + d)%nat /\ fms_inv init N (tv, xv, g N) /\ ms_loop ab_step f h t1 fuel k st = Ret (Some (tv, xv)) /\
    ltb (lit 1 10000000000) (tabs (sub (g N) t1)) = false.
Proof.
  induction d as [|d IH]; intros fuel n [[tv xv] tn] Hst Hn Hfu Hc; pose proof Hst as (_ & _ & Et & _).
  - rewrite Nat.add_0_r in Hc. exists n, tv, xv. split; [lia|]. split; [rewrite <- Et; exact Hst|]. split; [|exact Hc]. destruct fuel; cbn [ms_loop]; rewrite Et, Hc; reflexivity.
  - destruct (ltb (lit 1 10000000000) (tabs (sub (g n) t1))) eqn:Ec.
    + destruct fuel as [|fuel]; [lia|]. destruct (fms_push init n k _ Hst ltac:(lia)) as (st' & E & Hst').
      destruct (IH fuel (S n) st' Hst' ltac:(lia) ltac:(lia)) as (N & tv' & xv' & H1 & H2 & H3 & H4).
      { replace (S n + d)%nat with (n + S d)%nat by lia. exact Hc. }
      exists N, tv', xv'. split; [lia|]. split; [exact H2|]. split; [|exact H4]. cbn [ms_loop]. rewrite Et at 1. rewrite Ec, E. exact H3.
    + exists n, tv, xv. split; [lia|]. split; [rewrite <- Et; exact Hst|]. split; [|exact Ec]. destruct fuel; cbn [ms_loop]; rewrite Et, Ec; reflexivity.
Qed.
End Hist.

(** ** The weights are determined by their defining equations *)
Lemma adams_unique j b l : (1 <= j <= 5)%nat -> adams_weights j b -> (l < j)%nat -> b l = ab_beta j l.
Proof.
  intros Hj H Hl. assert (Hj' : (j = 1 \/ j = 2 \/ j = 3 \/ j = 4 \/ j = 5)%nat) by lia.
  destruct Hj' as [->|[->|[->|[->| ->]]]].
  - pose proof (H 0%nat ltac:(lia)) as E0. cases_lt l. cbn in E0 |- *. lra.
  - pose proof (H 0%nat ltac:(lia)) as E0. pose proof (H 1%nat ltac:(lia)) as E1. cbn in E0, E1. cases_lt l; cbn; lra.
  - pose proof (H 0%nat ltac:(lia)) as E0. pose proof (H 1%nat ltac:(lia)) as E1. pose proof (H 2%nat ltac:(lia)) as E2. cbn in E0, E1, E2. cases_lt l; cbn; lra.
  - pose proof (H 0%nat ltac:(lia)) as E0. pose proof (H 1%nat ltac:(lia)) as E1. pose proof (H 2%nat ltac:(lia)) as E2. pose proof (H 3%nat ltac:(lia)) as E3. cbn in E0, E1, E2, E3. cases_lt l; cbn; lra.
  - pose proof (H 0%nat ltac:(lia)) as E0. pose proof (H 1%nat ltac:(lia)) as E1. pose proof (H 2%nat ltac:(lia)) as E2. pose proof (H 3%nat ltac:(lia)) as E3. pose proof (H 4%nat ltac:(lia)) as E4.
    cbn in E0, E1, E2, E3, E4. cases_lt l; cbn; lra.
Qed.

(** The rounded sum of a step. *)
Lemma step_sum_ok j n F c q Kb : step_sum j n F c q -> (j <= S n)%nat -> 0 <= Kb -> 13 * Kb <= bpow radix2 990 ->
  (forall p, (p <= n)%nat -> fvalid (F p c) /\ ffin (F p c) = true /\ Rabs (fval (F p c)) <= Kb) ->
  let sg := sumn j (fun l => fval (F (n - l)%nat c) * ab_beta j l) in
  fvalid q /\ ffin q = true /\ Rabs sg <= 13 * Kb /\ Rabs (fval q - sg) <= 35 * uro * (13 * Kb) + 32 * eta64.
Proof.
  intros Hs Hn K0 KB HF sg. pose proof small_consts as ((U0 & U1) & (T0 & T1)). destruct Hs as [(-> & ->)|(Hj & Hs)].
  - destruct (HF n (le_n _)) as (V & Fi & B). split; [exact V|]. split; [exact Fi|].
    assert (E : sg = fval (F n c)) by (unfold sg; cbn [sumn ab_beta nth add zero R_ops]; rewrite Nat.sub_0_r; ring).
    rewrite E. split; [lra|]. rewrite Rminus_eq_0, Rabs_R0. assert (0 <= uro * (13 * Kb)) by (apply Rmult_le_pos; lra). lra.
  - destruct (fdot_ok j (fun l => F (n - l)%nat c) (fun l => nth l (ab64 j) zero) (ab_beta j) Kb 13 ltac:(lia) K0 KB) as (Vq & Fq & Eq & Bq).
    + intros l Hl. apply HF. lia.
    + intros l Hl. apply ab64_close; [exact Hj|exact Hl].
    + apply ab_beta_abs. lia.
    + cbv zeta in *. fold sg in Eq, Bq. destruct (sim_val _ _ Hs Vq Fq) as (V & Fi & E). split; [exact V|]. split; [exact Fi|].
      pose proof (ab_beta_abs j ltac:(lia)) as AB. set (S := sumn j (fun l => Rabs (ab_beta j l))) in *. assert (S0 : 0 <= S) by (apply sumR_nonneg; intros; apply Rabs_pos).
      assert (KS : 0 <= Kb * S <= 13 * Kb) by (split; [apply Rmult_le_pos; lra|rewrite (Rmult_comm 13); apply Rmult_le_compat_l; lra]).
      split; [lra|]. rewrite E. eapply Rle_trans; [exact Eq|].
      assert (J : 0 <= INR j <= 5) by (split; [apply pos_INR|]; replace 5 with (INR 5) by (cbn; lra); apply le_INR; lia).
      apply Rplus_le_compat; [|apply Rmult_le_compat_r; lra]. apply Rmult_le_compat; [apply Rmult_le_pos; lra|lra|apply Rmult_le_compat_r; lra|lra].
Qed.

Section ABRun.
Variables (h t0 t1 : f64) (M : R) (n k : nat).
Variables (f : f64 -> vector f64 -> outcome (vector f64)) (m : nat) (F : R -> (nat -> R) -> nat -> R).
Variables (lo hi X XR K L Lt eps : R) (init : vector f64) (g0 : nat -> f64).
Hypothesis Vh : fvalid h. Hypothesis V0 : fvalid t0. Hypothesis V1 : fvalid t1.
Hypothesis Fh : ffin h = true. Hypothesis F0 : ffin t0 = true. Hypothesis F1 : ffin t1 = true.
Hypothesis Hh : 0 < fval h. Hypothesis Ht : fval t0 <= fval t1.
Hypothesis M0 : Rabs (fval t0) <= M. Hypothesis M1 : Rabs (fval t1) <= M. Hypothesis MB : M <= bpow radix2 1000.
Hypothesis Hn47 : INR n <= IZR (2 ^ 47).
Hypothesis Hk : (1 <= k <= 5)%nat.
Let w := fval h + 4 * (INR n + 1) * uro * M.
Let P := 13 * (K + eps).
Let xi := uro * (X + 39 * w * P) + (33 * w + 2) * eta64.
Let r := xi + 13 * K * (2 * uro * M) + w * (13 * eps).
Let q := 13 * L * w.
Hypothesis Hlo : lo <= fval t0 - 4 * INR n * uro * M. Hypothesis Hhi : fval t1 + 4 * INR n * uro * M <= hi.
Hypothesis Htot : rhs_total f m. Hypothesis Hf : box_evaluates f m F lo hi X eps.
Hypothesis HF : box_regular m F lo hi X K L Lt.
Hypothesis L0 : 0 <= L. Hypothesis E0 : 0 <= eps. Hypothesis K0 : 0 <= K.
Hypothesis KB : P <= bpow radix2 990. Hypothesis XB : X + w * P <= bpow radix2 1000. Hypothesis WB : w <= bpow radix2 1000.
Hypothesis Hi : fcol init m g0.
Hypothesis XP : 0 <= X. Hypothesis HX : XR + exp (INR n * q) * (INR n * r) <= X.

Lemma ab_signs : 0 <= M /\ 0 <= w /\ 0 <= P /\ 0 <= r /\ 0 <= q /\ 0 <= xi.
Proof.
  pose proof small_consts as ((U0 & U1) & (T0 & T1)). assert (MP : 0 <= M) by (pose proof (Rabs_pos (fval t0)); lra). pose proof (pos_INR n) as Pn.
  assert (W0 : 0 <= w) by (unfold w; assert (0 <= 4 * (INR n + 1) * uro * M) by (repeat apply Rmult_le_pos; lra); lra).
  assert (P0 : 0 <= P) by (unfold P; lra). assert (wP : 0 <= w * P) by (apply Rmult_le_pos; lra).
  assert (q0 : 0 <= q) by (unfold q; repeat apply Rmult_le_pos; lra).
  assert (x0 : 0 <= xi) by (unfold xi; assert (0 <= uro * (X + 39 * w * P)) by (apply Rmult_le_pos; lra); assert (0 <= (33 * w + 2) * eta64) by (apply Rmult_le_pos; lra); lra).
  assert (D1 : 0 <= 13 * K * (2 * uro * M)) by (repeat apply Rmult_le_pos; lra). assert (D2 : 0 <= w * (13 * eps)) by (apply Rmult_le_pos; lra).
  assert (r0 : 0 <= r) by (unfold r; lra).
  repeat (split; [assumption|]); assumption.
Qed.

Let E (i : nat) : R := (1 + q) ^ i * (INR i * r).
Lemma E_le i j : (i <= j)%nat -> 0 <= E i <= E j.
Proof.
  destruct ab_signs as (_ & _ & _ & r0 & q0 & _). intros H. pose proof (pos_INR i) as Pi. pose proof (le_INR _ _ H) as Pij.
  assert (0 <= (1 + q) ^ i) by (apply pow_le; lra). assert ((1 + q) ^ i <= (1 + q) ^ j) by (apply Rle_pow; [lra|exact H]).
  unfold E. split; [repeat apply Rmult_le_pos; lra|]. apply Rmult_le_compat; [lra|apply Rmult_le_pos; lra|lra|apply Rmult_le_compat_r; lra].
Qed.
Lemma E_exp i : E i <= exp (INR i * q) * (INR i * r).
Proof.
  destruct ab_signs as (_ & _ & _ & r0 & q0 & _). pose proof (pos_INR i) as Pi. unfold E. apply Rmult_le_compat_r; [apply Rmult_le_pos; lra|]. exact (one_plus_pow_le_exp q i q0).
Qed.

Let g (i : nat) : f64 := Nat.iter i (fnext h t1) t0.

(** The f64 states along a run follow the exact recurrence. *)
Lemma ab_follow N tv xv z : (N <= n)%nat -> fms_inv f m t0 t1 h k init N (tv, xv, g N) ->
  (forall l, (l < m)%nat -> z 0%nat l = fval (g0 l)) -> adams_run F k m (fun i => fval (nth i tv zero)) z N -> (forall i, (i < N)%nat -> within m (z i) XR) ->
  forall i, (i <= N)%nat -> exists G, fcol (nth i xv (mkMatrix 0 0 [])) m G /\ within m (fun l => fval (G l) - z i l) (exp (INR i * q) * (INR i * r)).
Proof.
  intros HN (Htv & Hxv & _ & H0 & X' & Fv & (HL & Hh') & Hrec) Z0 Hz BZ.
  destruct ab_signs as (MP & W0 & P0 & r0 & q0 & x0). pose proof small_consts as ((U0 & U1) & (T0 & T1)). pose proof (pos_INR n) as Pn.
  assert (Hn48 : INR n <= IZR (2 ^ 48)) by (eapply Rle_trans; [exact Hn47|apply IZR_le; lia]).
  assert (T : forall i, (i <= N)%nat -> nth i tv zero = g i) by (intros i Hin; rewrite Htv; apply (nth_map_seq g); lia).
  assert (EX : forall i, (i <= n)%nat -> XR + E i <= X).
  { intros i Hin. pose proof (E_le i n Hin). pose proof (E_exp n). lra. }
  assert (Main : forall i, (i <= N)%nat -> forall l, (l < m)%nat -> fvalid (X' i l) /\ ffin (X' i l) = true /\ Rabs (fval (X' i l) - z i l) <= E i).
  { induction i as [i IH] using (well_founded_induction lt_wf). intros Hin l Hl. destruct i as [|i].
    - destruct (Hh' 0%nat ltac:(lia)) as (C0 & _). rewrite H0 in C0. rewrite (fcol_unique init m (X' 0%nat) g0 l C0 (proj1 Hi) Hl).
      destruct (proj2 Hi l Hl) as (V & Fi). split; [exact V|]. split; [exact Fi|]. rewrite (Z0 l Hl), Rminus_eq_0, Rabs_R0. apply (E_le 0 0). lia.
    - (* the values of the right-hand side *)
      assert (FV : forall p, (p <= i)%nat -> forall c, (c < m)%nat -> fvalid (Fv p c) /\ ffin (Fv p c) = true /\ Rabs (fval (Fv p c)) <= K + eps /\
         Rabs (F (fval (g p)) (z p) c) <= K /\ Rabs (fval (Fv p c) - F (fval (g p)) (z p) c) <= eps + L * E i).
      { intros p Hp c Hc. destruct (Hh' p ltac:(lia)) as (Cp & y & Ey & Cy). rewrite (T p) in Ey by lia.
        pose proof (time_facts h t0 t1 M Vh V0 V1 Fh F0 F1 Hh Ht M0 M1 MB n Hn48 p ltac:(lia)) as TF. cbv zeta in TF. fold (g p) in TF. destruct TF as (Vt & Ft & Bt & _).
        pose proof (IH p ltac:(lia) ltac:(lia)) as IHp. pose proof (E_le p i Hp) as Ep. pose proof (EX p ltac:(lia)) as EXp.
        assert (WX : within m (fun l => fval (X' p l)) X).
        { intros c' Hc'. destruct (IHp c' Hc') as (_ & _ & Be). pose proof (BZ p ltac:(lia) c' Hc') as Bz. apply Rabs_le_inv in Be. apply Rabs_le_inv in Bz. apply Rabs_le. lra. }
        assert (WZ : within m (z p) X) by (intros c' Hc'; pose proof (BZ p ltac:(lia) c' Hc'); lra).
        destruct (Hf (g p) (nth p xv (mkMatrix 0 0 [])) (X' p) Vt Ft ltac:(lra)) as (v & kk & Ev & (Ck & Vk) & Ke).
        { split; [exact Cp|]. intros c' Hc'. destruct (IHp c' Hc') as (A1 & A2 & _). auto. }
        { exact WX. }
        rewrite Ey in Ev. injection Ev as <-. rewrite (fcol_unique y m (Fv p) kk c Cy Ck Hc). destruct (Vk c Hc) as (A1 & A2). split; [exact A1|]. split; [exact A2|].
        pose proof (Ke c Hc) as Kc. cbv beta in Kc. destruct HF as (HFb & HFl).
        pose proof (HFb (fval (g p)) (fun l => fval (X' p l)) ltac:(lra) WX c Hc) as B1. pose proof (HFb (fval (g p)) (z p) ltac:(lra) WZ c Hc) as B2.
        pose proof (HFl (fval (g p)) (fval (g p)) (fun l => fval (X' p l)) (z p) (E p) ltac:(lra) ltac:(lra) WX WZ (fun c' Hc' => proj2 (proj2 (IHp c' Hc'))) c Hc) as B3. cbv beta in B1, B3.
        rewrite Rminus_eq_0, Rabs_R0, Rmult_0_r, Rplus_0_l in B3.
        assert (L * E p <= L * E i) by (apply Rmult_le_compat_l; lra).
        split. { replace (fval (kk c)) with ((fval (kk c) - F (fval (g p)) (fun l => fval (X' p l)) c) + F (fval (g p)) (fun l => fval (X' p l)) c) by ring. eapply Rle_trans; [apply Rabs_triang|]. lra. }
        split; [exact B2|].
        replace (fval (kk c) - F (fval (g p)) (z p) c) with ((fval (kk c) - F (fval (g p)) (fun l => fval (X' p l)) c) + (F (fval (g p)) (fun l => fval (X' p l)) c - F (fval (g p)) (z p) c)) by ring.
        eapply Rle_trans; [apply Rabs_triang|]. lra. }
      destruct (Hrec i ltac:(lia) l Hl) as (qs & Ex & Hs). fold (g i) in Ex. set (j := Nat.min (S i) k) in *.
      pose proof (time_facts h t0 t1 M Vh V0 V1 Fh F0 F1 Hh Ht M0 M1 MB n Hn48 i ltac:(lia)) as TF. cbv zeta in TF. fold (g i) in TF.
      destruct TF as (_ & _ & _ & Vs & Fs & Bs & Eg & _ & _ & Bd). rewrite <- Eg in Bd. change (fnext h t1 (g i)) with (g (S i)) in Bd. fold w in Bs.
      set (s := tmin h (sub t1 (g i))) in *.
      destruct (step_sum_ok j i Fv l qs (K + eps) Hs ltac:(lia) ltac:(lra) KB) as (Vq & Fq & Bq & Eq).
      { intros p Hp. destruct (FV p Hp l Hl) as (A1 & A2 & A3 & _). auto. }
      cbv zeta in Bq, Eq. fold P in Bq, Eq. set (sg := sumn j (fun l0 => fval (Fv (i - l0)%nat l) * ab_beta j l0)) in *.
      destruct (IH i ltac:(lia) ltac:(lia) l Hl) as (Vx & Fx & Bx). pose proof (BZ i ltac:(lia) l Hl) as Bzi. pose proof (EX i ltac:(lia)) as EXi.
      assert (BX : Rabs (fval (X' i l)) <= X) by (apply Rabs_le_inv in Bx; apply Rabs_le_inv in Bzi; apply Rabs_le; lra).
      destruct (comb_ok (X' i l) qs s sg P w X Vx Vq Vs Fx Fq Fs BX Bs Bq Eq XB WB) as (Vr & Fr & Er). cbv zeta in Vr, Fr, Er. rewrite <- Ex in Vr, Fr, Er. fold xi in Er.
      split; [exact Vr|]. split; [exact Fr|].
      destruct (Hz i ltac:(lia)) as (bt & Hb & Ez). fold j in Hb, Ez. specialize (Ez l Hl). rewrite (T i), (T (S i)) in Ez by lia.
      set (sz := sumn j (fun l0 => F (fval (g (i - l0)%nat)) (z (i - l0)%nat) l * ab_beta j l0)) in *.
      assert (Ez' : z (S i) l = z i l + (fval (g (S i)) - fval (g i)) * sz).
      { rewrite Ez. do 2 f_equal. unfold sz. apply sumn_ext. intros l0 Hl0. rewrite (T (i - l0)%nat) by lia. rewrite (adams_unique j bt l0 ltac:(lia) Hb Hl0). ring. }
      pose proof (ab_beta_abs j ltac:(lia)) as AB. pose proof (E_le i i (le_n _)) as (Ei0 & _). assert (LE : 0 <= L * E i) by (apply Rmult_le_pos; lra).
      assert (D1 : Rabs (sg - sz) <= 13 * (eps + L * E i)).
      { apply (sumR_diff j (fun l0 => fval (Fv (i - l0)%nat l)) (fun l0 => F (fval (g (i - l0)%nat)) (z (i - l0)%nat) l) (ab_beta j)); [lra| |exact AB]. intros l0 Hl0. apply FV; [lia|exact Hl]. }
      assert (D2 : Rabs sz <= 13 * K).
      { apply (sumR_bound j (fun l0 => F (fval (g (i - l0)%nat)) (z (i - l0)%nat) l) (ab_beta j)); [lra| |exact AB]. intros l0 Hl0. apply FV; [lia|exact Hl]. }
      assert (D3 : Rabs ((sg - sz) * fval s) <= w * (13 * (eps + L * E i))) by (rewrite Rabs_mult, Rmult_comm; apply Rmult_le_compat; try apply Rabs_pos; assumption).
      assert (D4 : Rabs (sz * (fval s - (fval (g (S i)) - fval (g i)))) <= 13 * K * (2 * uro * M)) by (rewrite Rabs_mult; apply Rmult_le_compat; try apply Rabs_pos; assumption).
      replace (fval (X' (S i) l) - z (S i) l) with ((fval (X' (S i) l) - (fval (X' i l) + sg * fval s)) + ((fval (X' i l) - z i l) + ((sg - sz) * fval s + sz * (fval s - (fval (g (S i)) - fval (g i)))))) by (rewrite Ez'; ring).
      eapply Rle_trans; [apply Rabs_triang|]. eapply Rle_trans; [apply Rplus_le_compat_l, Rabs_triang|]. eapply Rle_trans; [apply Rplus_le_compat_l, Rplus_le_compat_l, Rabs_triang|].
      assert (ES : E (S i) = (1 + q) * E i + (1 + q) ^ S i * r) by (unfold E; rewrite S_INR; cbn [pow]; ring).
      assert (1 <= (1 + q) ^ S i) by (apply pow_R1_Rle; lra). assert (r <= (1 + q) ^ S i * r) by (rewrite <- (Rmult_1_l r) at 1; apply Rmult_le_compat_r; lra).
      assert (EQ : E i + (w * (13 * (eps + L * E i)) + 13 * K * (2 * uro * M)) + xi = (1 + q) * E i + r) by (unfold r, q; ring). lra. }
  intros i Hin. exists (X' i). split.
  - split; [apply Hh'; lia|]. intros l Hl. destruct (Main i Hin l Hl) as (A1 & A2 & _). auto.
  - intros l Hl. destruct (Main i Hin l Hl) as (_ & _ & B). eapply Rle_trans; [exact B|apply E_exp].
Qed.

(** Whatever the solver returns follows the exact recurrence. *)
Lemma ab_run fuel tv xv : ab_solve f h t1 fuel k t0 init = Ret (Some (tv, xv)) -> (length tv <= S n)%nat ->
  length xv = length tv /\ (k <= length tv)%nat /\ (forall i, (i < length tv)%nat -> nth i tv zero = Nat.iter i (fun t => add t (tmin h (sub t1 t))) t0) /\
  forall z, (forall l, (l < m)%nat -> z 0%nat l = fval (g0 l)) -> adams_run F k m (fun i => fval (nth i tv zero)) z (length tv - 1) ->
    (forall i, (S i < length tv)%nat -> within m (z i) XR) ->
    forall i, (i < length tv)%nat -> exists G, fcol (nth i xv (mkMatrix 0 0 [])) m G /\ within m (fun l => fval (G l) - z i l) (exp (INR i * q) * (INR i * r)).
Proof.
  intros Es Hlen. unfold ab_solve, ms_solve in Es. destruct (ltb t1 t0); [discriminate|].
  destruct (fms_startup f m Htot t0 t1 h k Hk init g0 (proj1 Hi)) as (st & E1 & Hst). rewrite E1 in Es. cbn [bind] in Es.
  destruct (fms_loop f m Htot t0 t1 h k Hk init fuel (k - 1)%nat st Hst (le_n _)) as (r' & E2 & H2). rewrite E2 in Es. injection Es as ->.
  destruct (H2 tv xv eq_refl) as (N & HN & HI). pose proof HI as (Htv & Hxv & _).
  assert (LT : length tv = S N) by (rewrite Htv, map_length, seq_length; reflexivity).
  split; [congruence|]. split; [lia|]. split; [intros i Hin; rewrite Htv; apply (nth_map_seq g); lia|].
  rewrite LT. intros z Z0 Hz BZ i Hin. replace (S N - 1)%nat with N in Hz by lia.
  apply (ab_follow N tv xv z ltac:(lia) HI Z0 Hz); [intros p Hp; apply BZ; lia|lia].
Qed.

(** With a grid error below half the stopping tolerance, the solver returns within n steps. *)
Lemma ab_returns : (fval t1 - fval t0) / fval h <= INR n -> (k - 1 <= n)%nat -> 4 * INR n * uro * M <= 5 / 100000000000 ->
  exists tv xv, (length tv <= S n)%nat /\ forall fuel, (n <= fuel)%nat -> ab_solve f h t1 fuel k t0 init = Ret (Some (tv, xv)).
Proof.
  intros Hn Hkn Htol. assert (Hn48 : INR n <= IZR (2 ^ 48)) by (eapply Rle_trans; [exact Hn47|apply IZR_le; lia]).
  destruct (fms_startup f m Htot t0 t1 h k Hk init g0 (proj1 Hi)) as (st & E1 & Hst).
  assert (LT : ltb t1 t0 = false) by (rewrite fltb_val by assumption; apply Rlt_bool_false; exact Ht).
  destruct (fgrid_err h t0 t1 M Vh V0 V1 Fh F0 F1 Hh Ht M0 M1 MB n Hn48) as (Vt & Ft & Et). fold (g n) in Vt, Ft, Et.
  assert (Hr : fval t0 + INR n * fval h >= fval t1).
  { apply (Rmult_le_compat_r (fval h)) in Hn; [|lra]. unfold Rdiv in Hn. rewrite Rmult_assoc, Rinv_l, Rmult_1_r in Hn by lra. lra. }
  assert (Cl : ltb (lit 1 10000000000) (tabs (sub (g n) t1)) = false).
  { rewrite Rmin_right in Et by lra. pose proof (close_near t1 V1 F1 (g n) Vt Ft ltac:(lra)) as C. unfold close in C. apply negb_true_iff in C. exact C. }
  destruct (fms_loop_close f m Htot t0 t1 h k Hk init (n - (k - 1))%nat n (k - 1)%nat st Hst (le_n _) ltac:(lia)) as (N & tv & xv & HN & HI & Es & HC).
  { replace (k - 1 + (n - (k - 1)))%nat with n by lia. exact Cl. }
  exists tv, xv. pose proof HI as (Htv & _). split; [rewrite Htv, map_length, seq_length; lia|].
  intros fuel Hfu. unfold ab_solve, ms_solve. rewrite LT, E1. cbn [bind].
  assert (Hmono : forall fu fu' s r, ms_loop ab_step f h t1 fu k s = Ret (Some r) -> (fu <= fu')%nat -> ms_loop ab_step f h t1 fu' k s = Ret (Some r)).
  { clear. induction fu as [|fu IH]; intros fu' [[tv xv] tn] r H Hle.
    - cbn [ms_loop] in H. destruct fu'; cbn [ms_loop]; destruct (ltb _ _); try discriminate; exact H.
    - destruct fu' as [|fu']; [lia|]. cbn [ms_loop] in *. destruct (ltb _ _); [|exact H].
      destruct (ms_push _ _ _ _ _ _); cbn [bind] in *; [|discriminate]. apply IH; [exact H|lia]. }
  apply (Hmono n fuel st (tv, xv) Es Hfu).
Qed.
End ABRun.

(** ** The exact run exists, and bounds on F keep it in a box *)
Section Exact.
Variables (F : R -> (nat -> R) -> nat -> R) (k : nat) (tau : nat -> R) (z0 : nat -> R).
Fixpoint ztab (i : nat) : nat -> nat -> R :=
  match i with
  | 0%nat => fun _ => z0
  | S p => updK (ztab p) (S p) (fun l => ztab p p l + (tau (S p) - tau p) * sumn (Nat.min (S p) k) (fun j => ab_beta (Nat.min (S p) k) j * F (tau (p - j)%nat) (ztab p (p - j)%nat) l))
  end.
Lemma ztab_stable : forall d p, ztab (p + d) p = ztab p p.
Proof. induction d as [|d IH]; intros p; [rewrite Nat.add_0_r; reflexivity|]. rewrite Nat.add_succ_r. cbn [ztab]. unfold updK at 1. destruct (Nat.eqb_spec p (S (p + d))); [lia|apply IH]. Qed.
Lemma adams_exists m n : (1 <= k <= 5)%nat -> exists z, (forall l, z 0%nat l = z0 l) /\ adams_run F k m tau z n.
Proof.
  intros Hk. exists (fun p => ztab p p). split; [reflexivity|]. intros i _. exists (ab_beta (Nat.min (S i) k)). split; [apply ab_beta_weights; lia|].
  intros l _. cbn [ztab]. unfold updK at 1. rewrite Nat.eqb_refl. do 2 f_equal. apply sumn_ext. intros j Hj. cbv beta.
  replace (ztab i (i - j)%nat) with (ztab (i - j)%nat (i - j)%nat); [reflexivity|]. replace i with ((i - j) + j)%nat at 3 by lia. symmetry. apply ztab_stable.
Qed.
Lemma adams_apriori m n z lo hi X K X0 w : (1 <= k <= 5)%nat -> adams_run F k m tau z n -> 0 <= K -> 0 <= w -> (forall i, (i < n)%nat -> lo <= tau i <= hi) ->
  (forall i, (i < n)%nat -> Rabs (tau (S i) - tau i) <= w) -> (forall t x, lo <= t <= hi -> within m x X -> within m (F t x) K) ->
  within m (z 0%nat) X0 -> X0 + INR n * (w * (13 * K)) <= X -> forall i, (i <= n)%nat -> within m (z i) (X0 + INR i * (w * (13 * K))).
Proof.
  intros Hk Hz K0 W0 Ht Hw HF H0 HX. assert (wK : 0 <= w * (13 * K)) by (apply Rmult_le_pos; lra).
  assert (LX : forall p, (p <= n)%nat -> X0 + INR p * (w * (13 * K)) <= X).
  { intros p Hp. apply le_INR in Hp. assert (INR p * (w * (13 * K)) <= INR n * (w * (13 * K))) by (apply Rmult_le_compat_r; lra). lra. }
  induction i as [i IH] using (well_founded_induction lt_wf). intros Hin l Hl. destruct i as [|i]; [specialize (H0 l Hl); cbn [INR]; lra|].
  destruct (Hz i ltac:(lia)) as (b & Hb & E). rewrite (E l Hl). set (j := Nat.min (S i) k) in *. pose proof (IH i ltac:(lia) ltac:(lia) l Hl) as Bi.
  assert (B : Rabs (sumn j (fun j0 => b j0 * F (tau (i - j0)%nat) (z (i - j0)%nat) l)) <= 13 * K).
  { erewrite sumn_ext; [apply (sumR_bound j (fun j0 => F (tau (i - j0)%nat) (z (i - j0)%nat) l) (ab_beta j) K 13 K0)|].
    - intros j0 Hj0. apply HF; [apply Ht; lia| |exact Hl]. intros c Hc. pose proof (IH (i - j0)%nat ltac:(lia) ltac:(lia) c Hc). pose proof (LX (i - j0)%nat ltac:(lia)). lra.
    - apply ab_beta_abs. lia.
    - intros j0 Hj0. cbv beta. rewrite (adams_unique j b j0 ltac:(lia) Hb Hj0). ring. }
  eapply Rle_trans; [apply Rabs_triang|]. rewrite S_INR, Rabs_mult.
  assert (Rabs (tau (S i) - tau i) * Rabs (sumn j (fun j0 => b j0 * F (tau (i - j0)%nat) (z (i - j0)%nat) l)) <= w * (13 * K)) by (apply Rmult_le_compat; try apply Rabs_pos; [apply Hw; lia|exact B]). lra.
Qed.
End Exact.

(** The solver returns, and rounding moves no state far from the exact run. *)
Lemma ab_shipped (h t0 t1 : f64) (M : R) (n k : nat) f (m : nat) F lo hi X XR K L Lt eps init g0 :
  fvalid h -> fvalid t0 -> fvalid t1 -> ffin h = true -> ffin t0 = true -> ffin t1 = true ->
  0 < fval h -> fval t0 <= fval t1 -> Rabs (fval t0) <= M -> Rabs (fval t1) <= M -> M <= bpow radix2 1000 ->
  INR n <= IZR (2 ^ 47) -> (1 <= k <= 5)%nat ->
  let w := fval h + 4 * (INR n + 1) * uro * M in
  let P := 13 * (K + eps) in
  let xi := uro * (X + 39 * w * P) + (33 * w + 2) * eta64 in
  let r := xi + 13 * K * (2 * uro * M) + w * (13 * eps) in
  let q := 13 * L * w in
  lo <= fval t0 - 4 * INR n * uro * M -> fval t1 + 4 * INR n * uro * M <= hi ->
  rhs_total f m -> box_evaluates f m F lo hi X eps -> box_regular m F lo hi X K L Lt ->
  0 <= L -> 0 <= eps -> 0 <= K -> P <= bpow radix2 990 -> X + w * P <= bpow radix2 1000 -> w <= bpow radix2 1000 ->
  fcol init m g0 -> 0 <= X -> XR + exp (INR n * q) * (INR n * r) <= X ->
  (fval t1 - fval t0) / fval h <= INR n -> (k - 1 <= n)%nat -> 4 * INR n * uro * M <= 5 / 100000000000 ->
  forall X0, within m (fun l => fval (g0 l)) X0 -> X0 + INR n * (w * (13 * K)) <= XR ->
  exists tv xv z, (length tv <= S n)%nat /\ length xv = length tv /\ (forall fuel, (n <= fuel)%nat -> ab_solve f h t1 fuel k t0 init = Ret (Some (tv, xv))) /\
    (forall l, (l < m)%nat -> z 0%nat l = fval (g0 l)) /\ adams_run F k m (fun i => fval (nth i tv zero)) z (length tv - 1) /\
    forall i, (i < length tv)%nat -> exists G, fcol (nth i xv (mkMatrix 0 0 [])) m G /\ within m (fun l => fval (G l) - z i l) (exp (INR i * q) * (INR i * r)).
Proof.
  intros Vh V0 V1 Fh F0 F1 Hh Ht M0 M1 MB Hn47 Hk w P xi r q Hlo Hhi Htot Hf HF L0 E0 K0 KB XB WB Hi XP HX Hn Hkn Htol X0 HX0 HXR.
  destruct (ab_returns h t0 t1 M n k f m init g0 Vh V0 V1 Fh F0 F1 Hh Ht M0 M1 MB Hn47 Hk Htot Hi Hn Hkn Htol) as (tv & xv & HL & ER).
  destruct (ab_run h t0 t1 M n k f m F lo hi X XR K L Lt eps init g0 Vh V0 V1 Fh F0 F1 Hh Ht M0 M1 MB Hn47 Hk Hlo Hhi Htot Hf HF L0 E0 K0 KB XB WB Hi XP HX n tv xv (ER n (le_n _)) HL) as (HL2 & Hkl & HT & Main).
  destruct (adams_exists F k (fun i => fval (nth i tv zero)) (fun l => fval (g0 l)) m (length tv - 1) Hk) as (z & Hz0 & Hz).
  exists tv, xv, z. split; [exact HL|]. split; [exact HL2|]. split; [exact ER|]. split; [intros l _; apply Hz0|]. split; [exact Hz|].
  apply (Main z (fun l _ => Hz0 l) Hz). intros i Hin.
  assert (Hn48 : INR n <= IZR (2 ^ 48)) by (eapply Rle_trans; [exact Hn47|apply IZR_le; lia]).
  assert (TF : forall p, (p < length tv - 1)%nat -> lo <= fval (nth p tv zero) <= hi /\ Rabs (fval (nth (S p) tv zero) - fval (nth p tv zero)) <= w).
  { intros p Hp. pose proof (time_facts h t0 t1 M Vh V0 V1 Fh F0 F1 Hh Ht M0 M1 MB n Hn48 p ltac:(lia)) as TF. cbv zeta in TF.
    destruct TF as (_ & _ & Bt & _ & _ & _ & Eg & _ & Bw & _). rewrite (HT p), (HT (S p)) by lia.
    change (Nat.iter p (fun t => add t (tmin h (sub t1 t))) t0) with (Nat.iter p (fnext h t1) t0) in *.
    change (Nat.iter (S p) (fun t => add t (tmin h (sub t1 t))) t0) with (fnext h t1 (Nat.iter p (fnext h t1) t0)) in *. rewrite Eg. split; [lra|exact Bw]. }
  assert (W0 : 0 <= w). { pose proof small_consts as ((U0 & U1) & _). pose proof (pos_INR n). pose proof (Rabs_pos (fval t0)). unfold w. assert (0 <= 4 * (INR n + 1) * uro * M) by (repeat apply Rmult_le_pos; lra). lra. }
  assert (wK : 0 <= w * (13 * K)) by (apply Rmult_le_pos; lra).
  assert (EP : 0 <= exp (INR n * q) * (INR n * r)).
  { destruct (ab_signs h t0 M n X K L eps Hh M0 L0 E0 K0 XP) as (_ & _ & _ & r0 & _). pose proof (exp_pos (INR n * q)). pose proof (pos_INR n). apply Rmult_le_pos; [lra|]. apply Rmult_le_pos; [lra|exact r0]. }
  assert (LN : INR (length tv - 1) <= INR n) by (apply le_INR; lia).
  assert (LNK : INR (length tv - 1) * (w * (13 * K)) <= INR n * (w * (13 * K))) by (apply Rmult_le_compat_r; lra).
  pose proof (adams_apriori F k (fun i => fval (nth i tv zero)) m (length tv - 1) z lo hi X K X0 w Hk Hz K0 W0 (fun p Hp => proj1 (TF p Hp)) (fun p Hp => proj2 (TF p Hp)) (proj1 HF)) as AP.
  intros l Hl. eapply Rle_trans; [apply (AP ltac:(intros l' Hl'; rewrite Hz0; apply (HX0 l' Hl')) ltac:(lra) i ltac:(lia) l Hl)|].
  assert (INR i <= INR (length tv - 1)) by (apply le_INR; lia). assert (INR i * (w * (13 * K)) <= INR (length tv - 1) * (w * (13 * K))) by (apply Rmult_le_compat_r; lra). lra.
Qed.
