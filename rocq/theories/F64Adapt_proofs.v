(** The adaptive solver in binary64. *)
From Coq Require Import Arith List Bool Lia ZArith Reals Lra Psatz SpecFloat.
From Flocq Require Import Core IEEE754.BinarySingleNaN.
From Verif Require Import Outcome Scalar RealOps Matrix_model Vector_model Int_model Ode_model Matrix_spec Ode_spec Optim_spec OdeConv_spec OdeConv_proofs Matrix_proofs Vector_proofs Sums Ode_proofs OdeSolve_proofs
  F64_spec F64Flocq F64Err_proofs F64Grid_proofs F64Ode_spec F64Euler_proofs F64RK_proofs F64RKTab_proofs F64Adapt_spec.
Import ListNotations.
Local Open Scope R_scope.
#[local] Existing Instance Hprec53.

(** ** The step size never becomes negative *)
Definition nonneg (x : f64) : Prop := match x with S754_infinity true | S754_finite true _ _ => False | _ => True end.

Lemma round_aux_sign s m e l : match SpecFloat.binary_round_aux 53 1024 s m e l with S754_infinity s' | S754_finite s' _ _ => s' = s | _ => True end.
Proof.
  unfold SpecFloat.binary_round_aux. destruct (shr_fexp 53 1024 m e l) as (mrs & e'). destruct (shr_fexp 53 1024 _ e' loc_Exact) as (mrs' & e'').
  destruct (shr_m mrs'); [reflexivity| |exact I]. destruct (Z.leb _ _); reflexivity.
Qed.
Lemma mul_nonneg x y : nonneg x -> nonneg y -> nonneg (mul x y).
Proof.
  intros Hx Hy. change (mul x y) with (SFmul 53 1024 x y). destruct x as [sx|[|]| |[|] mx ex], y as [sy|[|]| |[|] my ey]; try contradiction; try exact I; cbn [SFmul]; try (cbn; destruct sx; exact I); try (cbn; destruct sy; exact I).
  pose proof (round_aux_sign (xorb false false) (Zpos (mx * my)) (ex + ey) loc_Exact) as H. cbn [xorb] in *. destruct (SpecFloat.binary_round_aux _ _ _ _ _ _); cbn; try exact I; subst; exact I.
Qed.
Lemma fpos_form x : fpos x -> exists m e, x = S754_finite false m e.
Proof.
  intros (V & F & P). destruct x as [s|s| |[|] m e]; try discriminate; [unfold fval in P; cbn in P; lra| |eauto].
  exfalso. pose proof (fval_pos m e) as Q. unfold fval, SF2R in *. cbn [cond_Zopp] in *. change (Z.neg m) with (- Z.pos m)%Z in P. rewrite F2R_Zopp in P. lra.
Qed.
Lemma nonneg_not_less x m e : ltb x (S754_finite false m e) = false -> nonneg x.
Proof. destruct x as [s|[|]| |[|] mx ex]; intros H; try exact I; discriminate. Qed.
Lemma factor_nonneg pw p l e : fpos (fac_min p) -> fpos (fac_max p) -> nonneg (@step_factor f64 F64_ops (F64_pops pw) p l e).
Proof.
  intros Hm HM. destruct (fpos_form _ Hm) as (m1 & e1 & E1). destruct (fpos_form _ HM) as (m2 & e2 & E2). unfold step_factor.
  set (s0 := mul (fac p) _). cbv zeta. set (s1 := if ltb s0 (fac_min p) then fac_min p else s0).
  assert (H1 : nonneg s1). { unfold s1. destruct (ltb s0 (fac_min p)) eqn:E; [rewrite E1; exact I|]. rewrite E1 in E. exact (nonneg_not_less _ _ _ E). }
  destruct (ltb (fac_max p) s1); [rewrite E2; exact I|exact H1].
Qed.
Lemma factor_valid pw p l e : f64_valued pw -> fvalid (fac p) -> fvalid (fac_min p) -> fvalid (fac_max p) -> fvalid (@step_factor f64 F64_ops (F64_pops pw) p l e).
Proof.
  intros Hpw V1 V2 V3. unfold step_factor. cbv zeta.
  assert (Vs : fvalid (mul (fac p) (@tpow f64 (F64_pops pw) (div one e) l))) by (apply fvalid_mul; [exact V1|]; cbn [tpow F64_pops]; apply Hpw).
  destruct (ltb _ (fac_min p)); destruct (ltb _ _); assumption.
Qed.

(** The size used for a step: between 0 and the rounded rest. *)
Lemma step_size_ok h d : fvalid h -> nonneg h -> fvalid d -> ffin d = true -> 0 <= fval d ->
  fvalid (tmin h d) /\ ffin (tmin h d) = true /\ 0 <= fval (tmin h d) <= fval d.
Proof.
  intros Vh Nh Vd Fd Pd. destruct (ffin h) eqn:Fh.
  - destruct (tmin_val h d Vh Vd Fh Fd) as (V & F & E). split; [exact V|]. split; [exact F|]. rewrite E. split; [|apply Rmin_r]. apply Rmin_glb; [|exact Pd].
    destruct h as [s|s| |[|] mm e]; try discriminate; try contradiction; [unfold fval; cbn; lra|left; apply fval_pos].
  - assert (E : tmin h d = d). { unfold tmin. destruct h as [s|[|]| |s mm e]; try discriminate; try contradiction; destruct d as [s'|s'| |[|] m' e']; try discriminate; reflexivity. }
    rewrite E. split; [exact Vd|]. split; [exact Fd|]. lra.
Qed.

(** ** The loop *)
Section Loop.
Variable pw : f64 -> f64 -> f64.
Variable p : pcontrol (T := f64).
Variable step : stepfn2 (T := f64).
Variables l t0 t1 : f64.
Variable M : R.
Variable init : vector f64.
Hypothesis Hpw : f64_valued pw.
Hypothesis Vfac : fvalid (fac p). Hypothesis Hmin : fpos (fac_min p). Hypothesis Hmax : fpos (fac_max p).
Hypothesis V0 : fvalid t0. Hypothesis V1 : fvalid t1. Hypothesis F0 : ffin t0 = true. Hypothesis F1 : ffin t1 = true.
Hypothesis Ht : fval t0 <= fval t1.
Hypothesis M0 : Rabs (fval t0) <= M. Hypothesis M1 : Rabs (fval t1) <= M. Hypothesis MB : M <= bpow radix2 1000.
Definition time_ok (t : f64) : Prop := fvalid t /\ ffin t = true /\ fval t0 <= fval t <= fval t1 + 4 * uro * M.
Definition move (t : f64) (x : vector f64) (t' : f64) (x' : vector f64) : Prop :=
  exists s xh e, fvalid s /\ ffin s = true /\ 0 <= fval s /\ ltb t t1 = true /\ t' = add t s /\ fval t <= fval t' /\ Rabs (fval s - (fval t' - fval t)) <= 2 * uro * M /\
    step t x s = Ret (x', xh) /\ @calc_error f64 F64_ops (F64_pops pw) p x' xh = Ret e /\ leb e one = true.

Lemma move_ok t h : time_ok t -> ltb t t1 = true -> fvalid h -> nonneg h -> let s := tmin h (sub t1 t) in
  fvalid s /\ ffin s = true /\ 0 <= fval s /\ nonneg s /\ time_ok (add t s) /\ fval t <= fval (add t s) /\ Rabs (fval s - (fval (add t s) - fval t)) <= 2 * uro * M.
Proof.
  intros (Vt & Ft & Bt) Hlt Vh Nh s. pose proof small_consts as ((U0 & U1) & _). assert (MP : 0 <= M) by (pose proof (Rabs_pos (fval t0)); lra).
  assert (UM : 0 <= uro * M <= / 1000000000 * M) by (split; [apply Rmult_le_pos; lra|apply Rmult_le_compat_r; lra]).
  rewrite fltb_val in Hlt by assumption. assert (H1 : fval t < fval t1) by (destruct (Rlt_bool_spec (fval t) (fval t1)); [assumption|discriminate]).
  pose proof (big_M M MB) as B4. apply Rabs_le_inv in M0. apply Rabs_le_inv in M1.
  assert (D : Rabs (fval t1 - fval t) <= 2 * M) by (rewrite Rabs_pos_eq; lra).
  assert (NO : no_overflow (fval t1 - fval t)) by (apply no_ov; lra).
  destruct (fsub_ok t1 t V1 Vt F1 Ft ltac:(lra)) as (Vd & Fd & Ed). destruct (fsub_round t1 t V1 Vt F1 Ft NO) as (Rd & _).
  assert (Pd : 0 <= fval (sub t1 t)) by (rewrite Rd, <- (round_0 radix2 (FLT_exp (-1074) 53) (Znearest (fun x => negb (Z.even x)))); apply round_le; [apply FLT_exp_valid; reflexivity|apply valid_rnd_N|lra]).
  destruct (step_size_ok h (sub t1 t) Vh Nh Vd Fd Pd) as (Vs & Fs & Bs). fold s in Vs, Fs, Bs.
  rewrite (Rabs_pos_eq (fval t1 - fval t)) in Ed by lra. apply Rabs_le_inv in Ed.
  assert (uro * (fval t1 - fval t) <= uro * (2 * M)) by (apply Rmult_le_compat_l; lra).
  assert (Bsum : - M <= fval t + fval s <= M + 2 * (uro * M)) by lra.
  assert (Asum : Rabs (fval t + fval s) <= M + 2 * (uro * M)) by (apply Rabs_le; lra).
  destruct (fadd_ok t s Vt Vs Ft Fs ltac:(lra)) as (Va & Fa & Ea). destruct (fadd_round t s Vt Vs Ft Fs ltac:(apply no_ov; lra)) as (Ra & _).
  assert (Mono : fval t <= fval (add t s)) by (rewrite Ra; rewrite <- (rnd_fval t Vt) at 1; apply round_le; [apply FLT_exp_valid; reflexivity|apply valid_rnd_N|lra]).
  assert (Q : uro * Rabs (fval t + fval s) <= 2 * uro * M).
  { apply Rle_trans with (uro * (M + 2 * (uro * M))); [apply Rmult_le_compat_l; lra|]. assert (uro * (2 * (uro * M)) <= uro * M) by (replace (uro * (2 * (uro * M))) with (2 * uro * (uro * M)) by ring; rewrite <- (Rmult_1_l (uro * M)) at 2; apply Rmult_le_compat_r; lra). lra. }
  pose proof (Rabs_le_inv _ _ Ea) as Ea'.
  split; [exact Vs|]. split; [exact Fs|]. split; [lra|].
  split. { unfold s, tmin. destruct (leb h (sub t1 t)); [exact Nh|]. destruct (sub t1 t) as [sz|[|]| |[|] mm ee] eqn:Eq; try discriminate; try exact I.
    exfalso. pose proof (fval_pos mm ee) as Q2. unfold fval, SF2R in Pd, Q2. cbn [cond_Zopp] in *. change (Z.neg mm) with (- Z.pos mm)%Z in Pd. rewrite F2R_Zopp in Pd. lra. }
  split; [split; [exact Va|]; split; [exact Fa|]; lra|]. split; [exact Mono|].
  apply Rabs_le. lra.
Qed.

Definition arun (tv : list f64) (xv : list (vector f64)) (tn : f64) (xn : vector f64) (n : nat) : Prop :=
  length tv = S n /\ length xv = S n /\ (n <= n_max p)%nat /\ nth 0 tv zero = t0 /\ nth 0 xv (mkMatrix 0 0 []) = init /\
  nth n tv zero = tn /\ nth n xv (mkMatrix 0 0 []) = xn /\ (forall i, (i <= n)%nat -> time_ok (nth i tv zero)) /\
  forall i, (i < n)%nat -> move (nth i tv zero) (nth i xv (mkMatrix 0 0 [])) (nth (S i) tv zero) (nth (S i) xv (mkMatrix 0 0 [])).

Lemma arun_loop : forall fuel tv xv tn xn h n r, fvalid h -> nonneg h -> arun tv xv tn xn n ->
  @adapt_loop f64 F64_ops (F64_pops pw) p step l t1 fuel tv xv tn xn h n = Ret (Some r) ->
  exists n' xn', arun (fst (fst r)) (snd (fst r)) (snd r) xn' n' /\ (n' = n_max p \/ ltb (snd r) t1 = false).
Proof.
  induction fuel as [|fuel IH]; intros tv xv tn xn h n r Vh Nh Hrun H; cbn [adapt_loop] in H;
    destruct ((n <? n_max p)%nat && ltb tn t1) eqn:Ec.
  1: discriminate.
  1, 3: injection H as <-; cbn [fst snd]; exists n, xn; split; [exact Hrun|];
    apply andb_false_iff in Ec; destruct Hrun as (_ & _ & Hn & _);
    destruct Ec as [Ec|Ec]; [left; apply Nat.ltb_ge in Ec; lia|right; exact Ec].
  apply andb_true_iff in Ec as (Hn & Htn). apply Nat.ltb_lt in Hn. cbv zeta in H.
  pose proof Hrun as (L1 & L2 & Hnm & H1 & H2 & H3 & H4 & HT & HS).
  pose proof (HT n (le_n _)) as Tn. rewrite H3 in Tn.
  destruct (move_ok tn h Tn Htn Vh Nh) as (Vs & Fs & Ps & Ns & Ta & Mo & Er). set (s := tmin h (sub t1 tn)) in *.
  apply bind_ret in H as ([x1 x2] & Est & H). cbn [fst snd] in H. apply bind_ret in H as (e & Ee & H).
  assert (Vh' : fvalid (if negb (eqb e zero) then mul (@step_factor f64 F64_ops (F64_pops pw) p l e) s else s)).
  { destruct (negb _); [|exact Vs]. apply fvalid_mul; [|exact Vs]. apply factor_valid; auto; [apply Hmin|apply Hmax]. }
  assert (Nh' : nonneg (if negb (eqb e zero) then mul (@step_factor f64 F64_ops (F64_pops pw) p l e) s else s)).
  { destruct (negb _); [|exact Ns]. apply mul_nonneg; [|exact Ns]. apply factor_nonneg; assumption. }
  refine (IH _ _ _ _ _ _ _ Vh' Nh' _ H). clear H IH Vh' Nh'.
  destruct (leb e one) eqn:Ele; [|exact Hrun].
  unfold arun. rewrite !app_length, L1, L2. cbn [length].
  split; [lia|]. split; [lia|]. split; [lia|].
  split; [rewrite nth_app_old by lia; exact H1|]. split; [rewrite nth_app_old by lia; exact H2|].
  split; [rewrite <- L1; apply nth_app_last|]. split; [rewrite <- L2; apply nth_app_last|]. split.
  - intros i Hi. destruct (Nat.eq_dec i (S n)) as [->|].
    + rewrite <- L1 at 1. rewrite nth_app_last. exact Ta.
    + rewrite nth_app_old by lia. apply HT. lia.
  - intros i Hi. rewrite (nth_app_old tv _ i), (nth_app_old xv _ i) by lia.
    destruct (Nat.eq_dec i n) as [->|].
    + replace (nth (S n) (tv ++ [add tn s]) zero) with (add tn s) by (rewrite <- L1, nth_app_last; reflexivity).
      replace (nth (S n) (xv ++ [x1]) (mkMatrix 0 0 [])) with x1 by (rewrite <- L2, nth_app_last; reflexivity).
      rewrite H3, H4. exists s, x2, e. repeat (split; [assumption || reflexivity|]). exact Ele.
    + rewrite !nth_app_old by lia. apply HS. lia.
Qed.
End Loop.

Lemma do_step2_returned {T} {O : Ops T} (B : tableau2 T) f t x h r rs : do_step2 B f t x h = Ret (r, rs) -> do_step (returned_method B) f t x h = Ret r.
Proof.
  unfold do_step2, do_step, returned_method. cbn [ta tb tc]. intros E. apply bind_ret in E as (k & -> & E). cbn [bind].
  apply bind_ret in E as (sm & -> & E). cbn [bind]. apply bind_ret in E as (x1 & -> & E). apply bind_ret in E as (s2 & _ & E). apply bind_ret in E as (x2 & _ & E).
  injection E as -> _. reflexivity.
Qed.

(** ** The solver's answers *)
Section Solve.
Variable pw : f64 -> f64 -> f64.
Variable p : pcontrol (T := f64).
Variable step : stepfn2 (T := f64).
Variables (t0 t1 : f64) (M : R) (init : vector f64) (q fuel : nat).
Hypothesis Hpw : f64_valued pw.
Hypothesis Hh : fpos (h_0 p). Hypothesis Vfac : fvalid (fac p). Hypothesis Hmin : fpos (fac_min p). Hypothesis Hmax : fpos (fac_max p).
Hypothesis V0 : fvalid t0. Hypothesis V1 : fvalid t1. Hypothesis F0 : ffin t0 = true. Hypothesis F1 : ffin t1 = true.
Hypothesis Ht : fval t0 <= fval t1.
Hypothesis M0 : Rabs (fval t0) <= M. Hypothesis M1 : Rabs (fval t1) <= M. Hypothesis MB : M <= bpow radix2 1000.

Lemma solve_arun r : @adapt_solve f64 F64_ops (F64_pops pw) p step q fuel t0 t1 init = Ret (Some r) ->
  exists n tv xv tn xn, arun pw p step t0 t1 M init tv xv tn xn n /\
    match r with Some (tv', xv') => tv' = tv /\ xv' = xv /\ ltb tn t1 = false | None => n = n_max p /\ ltb tn t1 = true end.
Proof.
  unfold adapt_solve. destruct (ltb t1 t0); [discriminate|]. cbv zeta. intros E. apply bind_ret in E as (r0 & E & E').
  destruct r0 as [((tv & xv) & tn)|]; [|discriminate].
  assert (N0 : nonneg (h_0 p)) by (destruct (fpos_form _ Hh) as (m & e & ->); exact I).
  assert (MP : 0 <= M) by (pose proof (Rabs_pos (fval t0)); lra). pose proof small_consts as ((U0 & U1) & _). assert (UM : 0 <= uro * M) by (apply Rmult_le_pos; lra).
  assert (Start : arun pw p step t0 t1 M init [t0] [init] t0 init 0).
  { unfold arun. cbn [length nth]. repeat (split; [reflexivity || lia|]). split; [|intros; lia].
    intros i Hi. replace i with 0%nat by lia. split; [exact V0|]. split; [exact F0|]. lra. }
  destruct (arun_loop pw p step _ t0 t1 M init Hpw Vfac Hmin Hmax V1 F1 M0 M1 MB _ _ _ _ _ _ _ _ (proj1 Hh) N0 Start E) as (n & xn & Hr & Hd).
  cbn [fst snd] in *. exists n, tv, xv, tn, xn. split; [exact Hr|]. destruct (ltb tn t1) eqn:El; injection E' as <-; [|auto].
  destruct Hd as [Hd|Hd]; [auto|discriminate].
Qed.

Lemma arun_steps tv xv tn xn n : arun pw p step t0 t1 M init tv xv tn xn n -> accepted_steps pw p step t0 t1 M init tv xv.
Proof.
  intros (L1 & L2 & Hn & H1 & H2 & H3 & H4 & HT & HS). split; [exact H1|]. split; [exact H2|]. rewrite L1. split; [intros i Hi; apply HT; lia|].
  intros i Hi. destruct (HT i ltac:(lia)) as (Vi & Fi & _). destruct (HS i ltac:(lia)) as (s & xh & e & S1 & S2 & S3 & S4 & S5 & S6 & S7 & S8 & S9 & S10).
  split; [exact S6|]. rewrite fltb_val in S4 by assumption. destruct (Rlt_bool_spec (fval (nth i tv zero)) (fval t1)) as [H|H]; [|discriminate]. split; [exact H|].
  exists s, xh, e. repeat (split; [assumption|]). assumption.
Qed.
Lemma adapt_answers tv xv : @adapt_solve f64 F64_ops (F64_pops pw) p step q fuel t0 t1 init = Ret (Some (Some (tv, xv))) ->
  length tv = length xv /\ (1 <= length tv <= S (n_max p))%nat /\ fval t1 <= fval (nth (length tv - 1) tv zero) /\
  accepted_steps pw p step t0 t1 M init tv xv.
Proof.
  intros E. destruct (solve_arun _ E) as (n & tv' & xv' & tn & xn & Hr & -> & -> & Hl). pose proof (arun_steps _ _ _ _ _ Hr) as St.
  destruct Hr as (L1 & L2 & Hn & H1 & H2 & H3 & H4 & HT & HS). split; [lia|]. split; [lia|]. split; [|exact St].
  rewrite L1, Nat.sub_succ, Nat.sub_0_r, H3. specialize (HT n (le_n _)). rewrite H3 in HT. destruct HT as (Vn & Fn & _).
  rewrite fltb_val in Hl by assumption. destruct (Rlt_bool_spec (fval tn) (fval t1)) as [H|H]; [discriminate|exact H].
Qed.
Lemma adapt_gives_up : @adapt_solve f64 F64_ops (F64_pops pw) p step q fuel t0 t1 init = Ret (Some None) ->
  exists tv xv, length tv = S (n_max p) /\ length xv = S (n_max p) /\ fval (nth (n_max p) tv zero) < fval t1 /\ accepted_steps pw p step t0 t1 M init tv xv.
Proof.
  intros E. destruct (solve_arun _ E) as (n & tv & xv & tn & xn & Hr & -> & Hl). pose proof (arun_steps _ _ _ _ _ Hr) as St.
  destruct Hr as (L1 & L2 & Hn & H1 & H2 & H3 & H4 & HT & HS). exists tv, xv. split; [exact L1|]. split; [exact L2|]. split; [|exact St].
  rewrite H3. specialize (HT _ (le_n _)). rewrite H3 in HT. destruct HT as (Vn & Fn & _).
  rewrite fltb_val in Hl by assumption. destruct (Rlt_bool_spec (fval tn) (fval t1)) as [H|H]; [exact H|discriminate].
Qed.
End Solve.

(** ** Following the exact run *)
Section Follow.
Variable pw : f64 -> f64 -> f64.
Variable p : pcontrol (T := f64).
Variables (t0 t1 : f64) (M : R) (init : vector f64) (n : nat).
Hypothesis M0 : Rabs (fval t0) <= M. Hypothesis M1 : Rabs (fval t1) <= M.
Variables (B64 : tableau2 f64) (B : tableau R) (A : R).
Variables (f : f64 -> vector f64 -> outcome (vector f64)) (fR : R -> vector R -> outcome (vector R)) (m : nat) (F : R -> (nat -> R) -> nat -> R).
Variables (lo hi X XR K L Lt eps w : R) (g0 : nat -> f64) (initR : vector R).
Hypothesis HB : rounded_tableau (returned_method B64) B A.
Let xi := uro * (X + 39 * w * (A * (K + eps))) + (33 * w + 2) * eta64.
Let theta := uro * (9 / 8 * M + 4 * w) + 2 * eta64.
Let ups := 2 * uro * M.
Let r := xi + A * K * ups + 2 * w * A * (eps + Lt * (theta + ups) + L * (xi + A * K * ups)).
Let q := 2 * L * A * w.
Hypothesis Hlo : lo + w + theta <= fval t0. Hypothesis Hhi : fval t1 + 4 * uro * M + w + theta <= hi.
Hypothesis Htot : rhs_total f m. Hypothesis Hf : box_evaluates f m F lo hi X eps.
Hypothesis HfR : forall t, computes (fR t) m m (F t). Hypothesis HF : box_regular m F lo hi X K L Lt.
Hypothesis L0 : 0 <= L. Hypothesis Lt0 : 0 <= Lt. Hypothesis E0 : 0 <= eps. Hypothesis K0 : 0 <= K. Hypothesis W0 : 0 <= w.
Hypothesis Hq : L * w * A <= / 2. Hypothesis KB : A * (K + eps) <= bpow radix2 990. Hypothesis XB : X <= bpow radix2 1000. Hypothesis TB : 9 / 8 * M + w <= bpow radix2 1000.
Hypothesis Hi : fcol init m g0. Hypothesis HiR : is_col initR m (fun l => fval (g0 l)).
Hypothesis X00 : 0 <= XR. Hypothesis XP : 0 <= X.
Hypothesis HX : XR + w * (A * (K + eps)) + xi + exp (INR n * q) * (INR n * r) <= X.
Variables (tv : list f64) (xv : list (vector f64)) (tn : f64) (xn : vector f64) (N : nat).
Hypothesis Hrun : arun pw p (do_step2 B64 f) t0 t1 M init tv xv tn xn N.
Hypothesis HN : (N <= n)%nat.
Hypothesis Hw : forall i, (i < N)%nat -> fval (nth (S i) tv zero) - fval (nth i tv zero) <= w - ups.

Lemma fo_signs : 0 <= M /\ 0 <= A /\ 0 <= theta /\ 0 <= ups /\ 0 <= xi /\ 0 <= r /\ 0 <= q.
Proof.
  pose proof small_consts as ((U0 & U1) & (T0 & T1)). assert (MP : 0 <= M) by (pose proof (Rabs_pos (fval t0)); lra).
  assert (A0 : 0 <= A) by (eapply A_pos; exact HB).
  assert (AK : 0 <= A * (K + eps)) by (apply Rmult_le_pos; lra). assert (wAK : 0 <= w * (A * (K + eps))) by (apply Rmult_le_pos; lra).
  assert (th0 : 0 <= theta) by (unfold theta; assert (0 <= uro * (9 / 8 * M + 4 * w)) by (apply Rmult_le_pos; lra); lra).
  assert (u0 : 0 <= ups) by (unfold ups; repeat apply Rmult_le_pos; lra).
  assert (AKu : 0 <= A * K * ups) by (apply Rmult_le_pos; [apply Rmult_le_pos; lra|exact u0]).
  assert (q0 : 0 <= q) by (unfold q; repeat apply Rmult_le_pos; lra).
  assert (P2 : 0 <= 2 * w * A * (eps + Lt * (theta + ups))).
  { assert (0 <= Lt * (theta + ups)) by (apply Rmult_le_pos; lra). apply Rmult_le_pos; [|lra]. repeat apply Rmult_le_pos; lra. }
  assert (x0 : 0 <= xi).
  { unfold xi. assert (0 <= uro * (X + 39 * w * (A * (K + eps)))) by (apply Rmult_le_pos; lra). assert (0 <= (33 * w + 2) * eta64) by (apply Rmult_le_pos; lra). lra. }
  assert (r0 : 0 <= r).
  { replace r with ((xi + A * K * ups) * (1 + q) + 2 * w * A * (eps + Lt * (theta + ups))) by (unfold r, q; ring). assert (0 <= (xi + A * K * ups) * (1 + q)) by (apply Rmult_le_pos; lra). lra. }
  repeat (split; [assumption|]); assumption.
Qed.
Lemma fo_bd i : (i <= n)%nat -> 0 <= (1 + q) ^ i * (INR i * r) <= exp (INR i * q) * (INR i * r) /\ exp (INR i * q) * (INR i * r) <= exp (INR n * q) * (INR n * r).
Proof.
  destruct fo_signs as (_ & _ & _ & _ & _ & r0 & q0). intros Hin. pose proof (pos_INR i) as Pi. pose proof (le_INR _ _ Hin) as Pin. assert (Q : 0 <= INR i * r) by (apply Rmult_le_pos; lra).
  pose proof (one_plus_pow_le_exp q i q0) as P. assert (0 <= (1 + q) ^ i) by (apply pow_le; lra).
  split; [split; [apply Rmult_le_pos; lra|apply Rmult_le_compat_r; lra]|].
  assert (EE : exp (INR i * q) <= exp (INR n * q)).
  { assert (D : INR i * q <= INR n * q) by (apply Rmult_le_compat_r; lra). destruct (Rle_lt_or_eq_dec _ _ D) as [D'|D']; [apply Rlt_le, exp_increasing, D'|rewrite D'; lra]. }
  apply Rmult_le_compat; [apply Rlt_le, exp_pos|exact Q|exact EE|apply Rmult_le_compat_r; lra].
Qed.
Definition fo_inv (i : nat) : Prop :=
  exists g xR gR, fcol (nth i xv (mkMatrix 0 0 [])) m g /\
    exact_run B fR (fun k => fval (nth k tv zero)) initR i = Ret xR /\ is_col xR m gR /\
    within m (fun l => fval (g l) - gR l) ((1 + q) ^ i * (INR i * r)).
Lemma fo_zero : fo_inv 0.
Proof.
  destruct Hrun as (_ & _ & _ & H1 & H2 & _). unfold fo_inv. rewrite H2. exists g0, initR, (fun l => fval (g0 l)). split; [exact Hi|]. split; [reflexivity|]. split; [exact HiR|].
  intros l Hl. rewrite Rminus_eq_0, Rabs_R0. cbn [INR pow]. lra.
Qed.
Lemma fo_step i xR gR : (i < N)%nat -> fo_inv i -> exact_run B fR (fun k => fval (nth k tv zero)) initR i = Ret xR -> is_col xR m gR -> within m gR XR ->
  fo_inv (S i) /\ exists xR' gR', exact_run B fR (fun k => fval (nth k tv zero)) initR (S i) = Ret xR' /\ is_col xR' m gR' /\ within m (fun l => gR' l - gR l) (w * (A * K)).
Proof.
  destruct fo_signs as (MP & A0 & th0 & u0 & x0 & r0 & q0). pose proof small_consts as ((U0 & U1) & (T0 & T1)).
  assert (AK : 0 <= A * (K + eps)) by (apply Rmult_le_pos; lra). assert (wAK : 0 <= w * (A * (K + eps))) by (apply Rmult_le_pos; lra).
  intros Hi1 (g & xR0 & gR0 & Hg & HxR0 & HgR0 & Bge) HxR HgR BgR.
  rewrite HxR in HxR0. injection HxR0 as <-.
  assert (Bge' : within m (fun l => fval (g l) - gR l) ((1 + q) ^ i * (INR i * r))).
  { intros l Hl. rewrite (rcol_unique xR m gR gR0 l HgR HgR0 Hl). apply (Bge l Hl). }
  clear Bge HgR0. rename Bge' into Bge.
  destruct Hrun as (_ & _ & _ & _ & _ & _ & _ & HT & HS). destruct (HT i ltac:(lia)) as (Vt & Ft & Bt).
  destruct (HS i Hi1) as (s & xh & er & Vs & Fs & Ps & _ & Et & Mo & Er & Est & _). pose proof (Hw i Hi1) as Gw.
  destruct (fo_bd i ltac:(lia)) as ((E0i & E1i) & E2i).
  set (e := (1 + q) ^ i * (INR i * r)) in *. set (Xg := XR + e).
  assert (GB : within m (fun l => fval (g l)) Xg).
  { intros l Hl. specialize (BgR l Hl). specialize (Bge l Hl). cbv beta in *. apply Rabs_le_inv in BgR. apply Rabs_le_inv in Bge. unfold Xg. apply Rabs_le. lra. }
  assert (GRB : within m gR Xg) by (intros l Hl; specialize (BgR l Hl); unfold Xg; lra).
  assert (HXg : Xg + w * (A * (K + eps)) + xi <= X) by (unfold Xg; lra).
  set (tt := nth i tv zero) in *. fold ups in Er. pose proof (Rabs_le_inv _ _ Er) as Er'.
  assert (UM : 0 <= uro * M <= / 1000000000 * M) by (split; [apply Rmult_le_pos; lra|apply Rmult_le_compat_r; lra]).
  pose proof (Rabs_le_inv _ _ M0) as M0'. pose proof (Rabs_le_inv _ _ M1) as M1'.
  destruct (rk_step_main (returned_method B64) B A f fR m F lo hi X K L Lt eps w (9 / 8 * M) HB Htot Hf HfR HF L0 Lt0 E0 K0 W0 Hq KB XB TB ltac:(lra)
    tt s (fval (nth (S i) tv zero) - fval tt) (nth i xv (mkMatrix 0 0 [])) g xR gR Xg e ups Vt Ft ltac:(apply Rabs_le; lra) ltac:(fold theta; lra) Vs Fs ltac:(rewrite Rabs_pos_eq; lra) ltac:(rewrite Rabs_pos_eq; lra) Er Hg HgR GB GRB HXg ltac:(unfold Xg; lra) Bge E0i)
    as (x' & g' & xR' & gR' & R1 & R2 & R3 & R4 & R5 & R6).
  fold xi theta in R5. apply do_step2_returned in Est. rewrite Est in R1. injection R1 as R1.
  assert (ES : exact_run B fR (fun k => fval (nth k tv zero)) initR (S i) = Ret xR'). { cbn [exact_run]. rewrite HxR. cbn [bind]. exact R3. }
  split; [|exists xR', gR'; split; [exact ES|]; split; [exact R4|exact R6]].
  unfold fo_inv. rewrite R1. exists g', xR', gR'. split; [exact R2|]. split; [exact ES|]. split; [exact R4|].
  intros l Hl. eapply Rle_trans; [apply (R5 l Hl)|]. cbn [pow]. rewrite S_INR.
  assert (1 <= (1 + q) * (1 + q) ^ i) by (change (1 <= (1 + q) ^ S i); apply pow_R1_Rle; lra).
  replace ((1 + q) * (1 + q) ^ i * ((INR i + 1) * r)) with ((1 + q) * e + (1 + q) * (1 + q) ^ i * r) by (unfold e; ring).
  assert (r <= (1 + q) * (1 + q) ^ i * r) by (rewrite <- (Rmult_1_l r) at 1; apply Rmult_le_compat_r; lra).
  assert (e + xi + A * K * ups + w * A * (2 * (eps + Lt * (theta + ups) + L * (xi + A * K * ups + e))) = (1 + q) * e + r) by (unfold r, q; ring). lra.
Qed.
Lemma fo_out i : (i <= N)%nat -> fo_inv i -> exists g xR gR, fcol (nth i xv (mkMatrix 0 0 [])) m g /\
     exact_run B fR (fun k => fval (nth k tv zero)) initR i = Ret xR /\ is_col xR m gR /\
     within m (fun l => fval (g l) - gR l) (exp (INR i * q) * (INR i * r)).
Proof.
  intros Hin (g & xR & gR & Q1 & Q2 & Q3 & Q4). exists g, xR, gR. split; [exact Q1|]. split; [exact Q2|]. split; [exact Q3|].
  intros l Hl. eapply Rle_trans; [apply (Q4 l Hl)|]. apply (fo_bd i ltac:(lia)).
Qed.
Lemma fo_run : (forall i xR gR, (i < N)%nat -> exact_run B fR (fun k => fval (nth k tv zero)) initR i = Ret xR -> is_col xR m gR -> within m gR XR) ->
   forall i, (i <= N)%nat -> exists g xR gR, fcol (nth i xv (mkMatrix 0 0 [])) m g /\
     exact_run B fR (fun k => fval (nth k tv zero)) initR i = Ret xR /\ is_col xR m gR /\
     within m (fun l => fval (g l) - gR l) (exp (INR i * q) * (INR i * r)).
Proof.
  intros HR. assert (Main : forall i, (i <= N)%nat -> fo_inv i).
  { induction i as [|i IH]; intros Hi1; [exact fo_zero|]. specialize (IH ltac:(lia)). pose proof IH as (g & xR & gR & _ & Q2 & Q3 & _).
    apply (fo_step i xR gR ltac:(lia) IH Q2 Q3 (HR i xR gR ltac:(lia) Q2 Q3)). }
  intros i Hin. apply (fo_out i Hin (Main i Hin)).
Qed.
Lemma fo_apriori X0 : within m (fun l => fval (g0 l)) X0 -> X0 + INR n * (w * (A * K)) <= XR ->
   forall i, (i <= N)%nat -> exists g xR gR, fcol (nth i xv (mkMatrix 0 0 [])) m g /\
     exact_run B fR (fun k => fval (nth k tv zero)) initR i = Ret xR /\ is_col xR m gR /\
     within m (fun l => fval (g l) - gR l) (exp (INR i * q) * (INR i * r)).
Proof.
  intros HX0 HXR. destruct fo_signs as (MP & A0 & th0 & u0 & x0 & r0 & q0). assert (wAK : 0 <= w * (A * K)) by (repeat apply Rmult_le_pos; lra).
  assert (Main : forall i, (i <= N)%nat -> fo_inv i /\ exists xR gR, exact_run B fR (fun k => fval (nth k tv zero)) initR i = Ret xR /\ is_col xR m gR /\ within m gR (X0 + INR i * (w * (A * K)))).
  { induction i as [|i IH]; intros Hi1.
    - split; [exact fo_zero|]. exists initR, (fun l => fval (g0 l)). split; [reflexivity|]. split; [exact HiR|]. intros l Hl. specialize (HX0 l Hl). cbv beta in *. cbn [INR]. lra.
    - destruct (IH ltac:(lia)) as (I & xR & gR & Q2 & Q3 & Q4).
      assert (BR : within m gR XR).
      { intros l Hl. specialize (Q4 l Hl). assert (INR i * (w * (A * K)) <= INR n * (w * (A * K))) by (apply Rmult_le_compat_r; [lra|apply le_INR; lia]). lra. }
      destruct (fo_step i xR gR ltac:(lia) I Q2 Q3 BR) as (I' & xR' & gR' & P1 & P2 & P3). split; [exact I'|]. exists xR', gR'. split; [exact P1|]. split; [exact P2|].
      intros l Hl. specialize (P3 l Hl). specialize (Q4 l Hl). cbv beta in *. rewrite S_INR. replace (gR' l) with (gR l + (gR' l - gR l)) by ring. eapply Rle_trans; [apply Rabs_triang|]. lra. }
  intros i Hin. apply (fo_out i Hin), Main, Hin.
Qed.
End Follow.

Lemma adapt_follow pw (p : pcontrol (T := f64)) (t0 t1 : f64) M n B64 B A f fR m F lo hi X XR K L Lt eps w init g0 initR :
  f64_valued pw -> fpos (h_0 p) -> fvalid (fac p) -> fpos (fac_min p) -> fpos (fac_max p) ->
  fvalid t0 -> fvalid t1 -> ffin t0 = true -> ffin t1 = true ->
  fval t0 <= fval t1 -> Rabs (fval t0) <= M -> Rabs (fval t1) <= M -> M <= bpow radix2 1000 ->
  rounded_tableau (returned_method B64) B A ->
  let xi := uro * (X + 39 * w * (A * (K + eps))) + (33 * w + 2) * eta64 in
  let theta := uro * (9 / 8 * M + 4 * w) + 2 * eta64 in
  let ups := 2 * uro * M in
  let r := xi + A * K * ups + 2 * w * A * (eps + Lt * (theta + ups) + L * (xi + A * K * ups)) in
  let q := 2 * L * A * w in
  lo + w + theta <= fval t0 -> fval t1 + 4 * uro * M + w + theta <= hi ->
  rhs_total f m -> box_evaluates f m F lo hi X eps -> (forall t, computes (fR t) m m (F t)) -> box_regular m F lo hi X K L Lt ->
  0 <= L -> 0 <= Lt -> 0 <= eps -> 0 <= K -> 0 <= w ->
  L * w * A <= / 2 -> A * (K + eps) <= bpow radix2 990 -> X <= bpow radix2 1000 -> 9 / 8 * M + w <= bpow radix2 1000 ->
  fcol init m g0 -> is_col initR m (fun l => fval (g0 l)) -> 0 <= XR -> 0 <= X ->
  XR + w * (A * (K + eps)) + xi + exp (INR n * q) * (INR n * r) <= X ->
  forall ord fuel tv xv, @adapt_solve f64 F64_ops (F64_pops pw) p (do_step2 B64 f) ord fuel t0 t1 init = Ret (Some (Some (tv, xv))) ->
  (length tv <= S n)%nat ->
  let tau k := fval (nth k tv zero) in
  (forall i, (S i < length tv)%nat -> tau (S i) - tau i <= w - ups) ->
  (forall i xR gR, (S i < length tv)%nat -> exact_run B fR tau initR i = Ret xR -> is_col xR m gR -> within m gR XR) ->
  forall i, (i < length tv)%nat -> exists g xR gR, fcol (nth i xv (mkMatrix 0 0 [])) m g /\
    exact_run B fR tau initR i = Ret xR /\ is_col xR m gR /\
    within m (fun l => fval (g l) - gR l) (exp (INR i * q) * (INR i * r)).
Proof.
  intros Hpw Hh Vf Hmin Hmax V0 V1 F0 F1 Ht M0 M1 MB HB xi theta ups r q Hlo Hhi Htot Hf HfR HF L0 Lt0 E0 K0 W0 Hq KB XB TB Hi HiR X00 XP HX ord fuel tv xv E Hn tau Hw HR i Hin.
  destruct (solve_arun pw p _ t0 t1 M init ord fuel Hpw Hh Vf Hmin Hmax V0 V1 F0 F1 Ht M0 M1 MB _ E) as (N & tv' & xv' & tn & xn & Hr & <- & <- & _).
  pose proof Hr as (L1 & _). refine (fo_run pw p t0 t1 M init n M0 M1 B64 B A f fR m F lo hi X XR K L Lt eps w g0 initR HB Hlo Hhi Htot Hf HfR HF L0 Lt0 E0 K0 W0 Hq KB XB TB Hi HiR X00 XP HX tv xv tn xn N Hr _ _ _ i _); try lia.
  - intros j Hj. apply (Hw j). lia.
  - intros j xR gR Hj. apply (HR j xR gR). lia.
Qed.
Lemma adapt_follow_apriori pw (p : pcontrol (T := f64)) (t0 t1 : f64) M n B64 B A f fR m F lo hi X XR K L Lt eps w init g0 initR :
  f64_valued pw -> fpos (h_0 p) -> fvalid (fac p) -> fpos (fac_min p) -> fpos (fac_max p) ->
  fvalid t0 -> fvalid t1 -> ffin t0 = true -> ffin t1 = true ->
  fval t0 <= fval t1 -> Rabs (fval t0) <= M -> Rabs (fval t1) <= M -> M <= bpow radix2 1000 ->
  rounded_tableau (returned_method B64) B A ->
  let xi := uro * (X + 39 * w * (A * (K + eps))) + (33 * w + 2) * eta64 in
  let theta := uro * (9 / 8 * M + 4 * w) + 2 * eta64 in
  let ups := 2 * uro * M in
  let r := xi + A * K * ups + 2 * w * A * (eps + Lt * (theta + ups) + L * (xi + A * K * ups)) in
  let q := 2 * L * A * w in
  lo + w + theta <= fval t0 -> fval t1 + 4 * uro * M + w + theta <= hi ->
  rhs_total f m -> box_evaluates f m F lo hi X eps -> (forall t, computes (fR t) m m (F t)) -> box_regular m F lo hi X K L Lt ->
  0 <= L -> 0 <= Lt -> 0 <= eps -> 0 <= K -> 0 <= w ->
  L * w * A <= / 2 -> A * (K + eps) <= bpow radix2 990 -> X <= bpow radix2 1000 -> 9 / 8 * M + w <= bpow radix2 1000 ->
  fcol init m g0 -> is_col initR m (fun l => fval (g0 l)) -> 0 <= XR -> 0 <= X ->
  XR + w * (A * (K + eps)) + xi + exp (INR n * q) * (INR n * r) <= X ->
  forall X0, within m (fun l => fval (g0 l)) X0 -> X0 + INR n * (w * (A * K)) <= XR ->
  forall ord fuel tv xv, @adapt_solve f64 F64_ops (F64_pops pw) p (do_step2 B64 f) ord fuel t0 t1 init = Ret (Some (Some (tv, xv))) ->
  (length tv <= S n)%nat ->
  let tau k := fval (nth k tv zero) in
  (forall i, (S i < length tv)%nat -> tau (S i) - tau i <= w - ups) ->
  forall i, (i < length tv)%nat -> exists g xR gR, fcol (nth i xv (mkMatrix 0 0 [])) m g /\
    exact_run B fR tau initR i = Ret xR /\ is_col xR m gR /\
    within m (fun l => fval (g l) - gR l) (exp (INR i * q) * (INR i * r)).
Proof.
  intros Hpw Hh Vf Hmin Hmax V0 V1 F0 F1 Ht M0 M1 MB HB xi theta ups r q Hlo Hhi Htot Hf HfR HF L0 Lt0 E0 K0 W0 Hq KB XB TB Hi HiR X00 XP HX X0 HX0 HXR ord fuel tv xv E Hn tau Hw i Hin.
  destruct (solve_arun pw p _ t0 t1 M init ord fuel Hpw Hh Vf Hmin Hmax V0 V1 F0 F1 Ht M0 M1 MB _ E) as (N & tv' & xv' & tn & xn & Hr & <- & <- & _).
  pose proof Hr as (L1 & _). refine (fo_apriori pw p t0 t1 M init n M0 M1 B64 B A f fR m F lo hi X XR K L Lt eps w g0 initR HB Hlo Hhi Htot Hf HfR HF L0 Lt0 E0 K0 W0 Hq KB XB TB Hi HiR X00 XP HX tv xv tn xn N Hr _ _ X0 HX0 HXR i _); try lia.
  intros j Hj. apply (Hw j). lia.
Qed.
