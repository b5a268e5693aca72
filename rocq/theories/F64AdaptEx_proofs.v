(** The shipped embedded pairs in binary64, and x' = -x with the default step control. *)
From Coq Require Import Arith List Bool Lia ZArith Reals Lra Psatz SpecFloat.
From Flocq Require Import Core IEEE754.BinarySingleNaN.
From Verif Require Import Outcome Scalar RealOps Matrix_model Vector_model Int_model Ode_model Matrix_spec Ode_spec OdeConv_spec Optim_spec Matrix_proofs Vector_proofs Ode_proofs
  F64_spec F64Flocq F64Err_proofs F64Grid_proofs F64Ode_spec F64Euler_proofs F64EulerEx_proofs F64RK_proofs F64RKTab_proofs F64RKEx_proofs F64Chol_proofs F64Adapt_spec F64Adapt_proofs.
Import ListNotations.
Local Open Scope R_scope.
#[local] Existing Instance Hprec53.

Ltac tab2 := unfold rounded_tableau; cbv beta iota zeta delta [returned_method fehlberg12 bogacki_shampine23 fehlberg45 cash_karp45 dormand_prince ta2 tb2 tc2 tb ta tc length];
  split; [reflexivity|]; split; [lia|]; split; [split; cbn; lia|]; split; [split; cbn; lia|];
  split; [let j := fresh "j" in let l := fresh "l" in let H := fresh "H" in intros j l H; cases_lt j; (cases_lt l; try cl)|];
  split; [let j := fresh "j" in let H := fresh "H" in intros j H; cases_lt j; cl|];
  split; [let j := fresh "j" in let H := fresh "H" in intros j H; cases_lt j; (split; [cl|rsum])|];
  split; [let j := fresh "j" in let H := fresh "H" in intros j H; cases_lt j; rsum|rsum].
Lemma embedded_rounded : Forall (fun p => rounded_tableau (returned_method (fst (fst p))) (returned_method (snd (fst p))) (snd p)) embedded_pairs.
Proof. repeat (apply Forall_cons; [cbn [fst snd]; tab2|]). apply Forall_nil. Qed.

Lemma adapt_shipped pw (p : pcontrol (T := f64)) (t0 t1 : f64) M n B64 B A f fR m F lo hi X XR K L Lt eps w init g0 initR :
  f64_valued pw -> fpos (h_0 p) -> fvalid (fac p) -> fpos (fac_min p) -> fpos (fac_max p) ->
  fvalid t0 -> fvalid t1 -> ffin t0 = true -> ffin t1 = true ->
  fval t0 <= fval t1 -> Rabs (fval t0) <= M -> Rabs (fval t1) <= M -> M <= bpow radix2 1000 ->
  In (B64, B, A) embedded_pairs ->
  let xi := uro * (X + 39 * w * (A * (K + eps))) + (33 * w + 2) * eta64 in
  let theta := uro * (9 / 8 * M + 4 * w) + 2 * eta64 in
  let ups := 2 * uro * M in
  let r := xi + A * K * ups + 2 * w * A * (eps + Lt * (theta + ups) + L * (xi + A * K * ups)) in
  let q := 2 * L * A * w in
  lo + w + theta <= fval t0 -> fval t1 + 4 * uro * M + w + theta <= hi ->
  rhs_total f m -> box_evaluates f m F lo hi X eps -> (forall t, computes (fR t) m m (F t)) -> box_regular m F lo hi X K L Lt ->
  0 <= L -> 0 <= Lt -> 0 <= eps -> 0 <= K -> 0 <= w ->
  L * w * A <= / 2 -> A * (K + eps) <= bpow radix2 990 -> X <= bpow radix2 1000 -> 9 / 8 * M + w <= bpow radix2 1000 ->
  fcol init m g0 -> is_col initR m (fun l => fval (g0 l)) -> 0 <= XR -> 0 <= X ->
  XR + w * (A * (K + eps)) + xi + exp (INR n * q) * (INR n * r) <= X ->
  forall X0, within m (fun l => fval (g0 l)) X0 -> X0 + INR n * (w * (A * K)) <= XR ->
  forall ord fuel tv xv, @adapt_solve f64 F64_ops (F64_pops pw) p (do_step2 B64 f) ord fuel t0 t1 init = Ret (Some (Some (tv, xv))) ->
  (length tv <= S n)%nat ->
  let tau k := fval (nth k tv zero) in
  (forall i, (S i < length tv)%nat -> tau (S i) - tau i <= w - ups) ->
  forall i, (i < length tv)%nat -> exists g xR gR, fcol (nth i xv (mkMatrix 0 0 [])) m g /\
    exact_run (returned_method B) fR tau initR i = Ret xR /\ is_col xR m gR /\
    within m (fun l => fval (g l) - gR l) (exp (INR i * q) * (INR i * r)).
Proof.
  intros Hpw Hh Vf Hmin Hmax V0 V1 F0 F1 Ht M0 M1 MB HIn. pose proof (proj1 (Forall_forall _ _) embedded_rounded _ HIn) as HB. cbn [fst snd] in HB.
  exact (adapt_follow_apriori pw p t0 t1 M n B64 (returned_method B) A f fR m F lo hi X XR K L Lt eps w init g0 initR Hpw Hh Vf Hmin Hmax V0 V1 F0 F1 Ht M0 M1 MB HB).
Qed.

(** A power function that is right for square roots and returns 1 otherwise. *)
Definition demo_pow (x y : f64) : f64 :=
  if SFeqb y (@half f64 (F64_pops (fun a _ => a))) then (if valid_binary 53 1024 x then SFsqrt 53 1024 x else S754_nan) else one.
Lemma demo_valued : f64_valued demo_pow.
Proof. intros x y. unfold demo_pow. destruct (SFeqb _ _); [|reflexivity]. destruct (valid_binary 53 1024 x) eqn:V; [|reflexivity]. apply (sqrt_acc_ieee x V). Qed.
(** 2^-4 *)
Definition demo_stop : f64 := S754_finite false 4503599627370496 (-56).
Lemma demo_stop_val : fval demo_stop = / 16.
Proof. unfold demo_stop, fval, SF2R, F2R, bpow. cbn -[Rmult Rinv IZR]. change (Z.pow_pos 2 56) with 72057594037927936%Z. lra. Qed.
Definition demo_times : list f64 := [S754_zero false; S754_finite false 5764607523034235 (-58); S754_finite false 5188146770730812 (-57);
  S754_finite false 7032821178101767 (-57); S754_finite false 8508560703998531 (-57); demo_stop].

Lemma ff_val m e : fval (S754_finite false m (Z.neg e)) = IZR (Zpos m) / IZR (2 ^ Zpos e).
Proof. unfold fval, SF2R, F2R. cbn [Fnum Fexp cond_Zopp]. change (Z.neg e) with (- Zpos e)%Z. rewrite bpow_neg_Z by lia. reflexivity. Qed.
Lemma lit_fpos x m e : x = S754_finite false m e -> fvalid x -> fpos x.
Proof. intros -> V. split; [exact V|]. split; [reflexivity|]. apply fval_pos. Qed.

Lemma decay_adaptive : exists xv, length xv = 6%nat /\
  @adapt_solve f64 F64_ops (F64_pops demo_pow) pc_default (do_step2 bogacki_shampine23 (fun _ x => Ret (vneg x))) (fst bogacki_shampine23_order) 20 zero demo_stop decay_init = Ret (Some (Some (demo_times, xv))) /\
  forall i, (i < 6)%nat -> exists g xR gR, fcol (nth i xv (mkMatrix 0 0 [])) 1 g /\
    exact_run (returned_method bogacki_shampine23) (fun _ x => Ret (vneg x)) (fun k => fval (nth k demo_times zero)) (mkMatrix 1 1 [1]) i = Ret xR /\ is_col xR 1 gR /\
    Rabs (fval (g 0%nat) - gR 0%nat) <= / 10 ^ 13.
Proof.
  assert (B10 : 4096 <= bpow radix2 990) by (change 4096 with (bpow radix2 12); apply bpow_le; lia).
  assert (B11 : 4096 <= bpow radix2 1000) by (change 4096 with (bpow radix2 12); apply bpow_le; lia).
  assert (Z0 : fval (zero : f64) = 0) by reflexivity. pose proof fval_one as Z1. pose proof demo_stop_val as Ze. pose proof eta64_pos as T0.
  assert (T1 : eta64 <= bpow radix2 (-80)) by (unfold eta64; apply bpow_le; lia).
  change (bpow radix2 (-80)) with (/ 1208925819614629174706176) in T1.
  assert (E : exists xv, @adapt_solve f64 F64_ops (F64_pops demo_pow) pc_default (do_step2 bogacki_shampine23 (fun _ x => Ret (vneg x))) (fst bogacki_shampine23_order) 20 zero demo_stop decay_init = Ret (Some (Some (demo_times, xv))) /\ length xv = 6%nat).
  { eexists. split; [vm_compute; reflexivity|reflexivity]. }
  destruct E as (xv & E & Lx). exists xv. split; [exact Lx|]. split; [exact E|].
  set (w := 21 / 1000).
  set (xi := uro * (2 + 39 * w * (1 * (2 + 0))) + (33 * w + 2) * eta64).
  set (theta := uro * (9 / 8 * (/ 16) + 4 * w) + 2 * eta64).
  set (ups := 2 * uro * (/ 16)).
  set (r := xi + 1 * 2 * ups + 2 * w * 1 * (0 + 0 * (theta + ups) + 1 * (xi + 1 * 2 * ups))).
  set (q := 2 * 1 * 1 * w).
  assert (Bxi : 0 <= xi <= 5 / 10 ^ 16) by (unfold xi, w; rewrite uro_val; lra).
  assert (Bups : 0 <= ups <= 3 / 10 ^ 17) by (unfold ups; rewrite uro_val; lra).
  assert (Bth : 0 <= theta <= / 1000) by (unfold theta, w; rewrite uro_val; lra).
  assert (Br : 0 <= r <= / 10 ^ 15) by (unfold r, w; lra).
  assert (INR 5 = 5) as I5 by (cbn; lra).
  assert (Ex : forall k, (k <= 5)%nat -> 0 <= exp (INR k * q) * (INR k * r) <= / 10 ^ 13).
  { intros k Hk. apply le_INR in Hk. rewrite I5 in Hk. pose proof (pos_INR k).
    assert (E1 : INR k * q <= 1) by (unfold q, w; lra).
    assert (E2 : exp (INR k * q) <= 3) by (apply Rle_trans with (exp 1); [destruct E1 as [E1| ->]; [left; apply exp_increasing, E1|lra]|apply exp_le_3]).
    pose proof (exp_pos (INR k * q)). assert (0 <= INR k * r <= 5 * (/ 10 ^ 15)) by (split; [apply Rmult_le_pos; lra|apply Rmult_le_compat; lra]).
    split; [apply Rmult_le_pos; lra|]. apply Rle_trans with (3 * (5 * (/ 10 ^ 15))); [apply Rmult_le_compat; lra|lra]. }
  intros i Hi. destruct (adapt_shipped demo_pow pc_default zero demo_stop (/ 16) 5 bogacki_shampine23 bogacki_shampine23 1 (fun _ x => Ret (vneg x)) (fun _ x => Ret (vneg x)) 1%nat decay_F (-1) 2 2 (18 / 10) 2 1 0 0 w decay_init (fun _ => one) (mkMatrix 1 1 [1]))
    with (X0 := 1) (ord := fst bogacki_shampine23_order) (fuel := 20%nat) (tv := demo_times) (xv := xv) (i := i) as (g & xR & gR & Hg & ER & HgR & He);
  try (fold xi); try (fold theta); try (fold ups); try (fold r); try (fold q).
  - exact demo_valued.
  - eapply lit_fpos; vm_compute; reflexivity.
  - reflexivity.
  - eapply lit_fpos; vm_compute; reflexivity.
  - eapply lit_fpos; vm_compute; reflexivity.
  - reflexivity.
  - reflexivity.
  - reflexivity.
  - reflexivity.
  - rewrite Z0, Ze; lra.
  - rewrite Z0, Rabs_R0; lra.
  - rewrite Ze, Rabs_pos_eq; lra.
  - lra.
  - cbn [In embedded_pairs]. tauto.
  - rewrite Z0. unfold w. lra.
  - rewrite Ze, uro_val. unfold w. lra.
  - apply decay_total.
  - apply decay_box_evaluates.
  - apply decay_computes.
  - apply decay_box_regular.
  - lra.
  - lra.
  - lra.
  - lra.
  - unfold w; lra.
  - unfold w; lra.
  - lra.
  - lra.
  - unfold w; lra.
  - split; [|intros l Hl; split; reflexivity]. split; [reflexivity|]. split; [reflexivity|]. intros i' j Hi' Hj. assert (i' = 0%nat) by lia. assert (j = 0%nat) by lia. subst. reflexivity.
  - split; [reflexivity|]. split; [reflexivity|]. intros i' j Hi' Hj. assert (i' = 0%nat) by lia. assert (j = 0%nat) by lia. subst. rewrite Z1. reflexivity.
  - lra.
  - lra.
  - pose proof (Ex 5%nat (le_n _)). unfold w. lra.
  - intros l Hl. rewrite Z1, Rabs_R1. lra.
  - rewrite I5. unfold w. lra.
  - exact E.
  - cbn; lia.
  - intros j Hj. cbn [demo_times length] in Hj. unfold w. assert (C : (j = 0 \/ j = 1 \/ j = 2 \/ j = 3 \/ j = 4)%nat) by lia.
    destruct C as [->|[->|[->|[->| ->]]]]; cbn [nth demo_times]; unfold demo_stop; change (fval (S754_zero false)) with 0; rewrite ?ff_val;
      cbn [Z.pow Z.pow_pos Pos.iter Z.mul Pos.mul]; lra.
  - exact Hi.
  - exists g, xR, gR. split; [exact Hg|]. split; [exact ER|]. split; [exact HgR|]. specialize (He 0%nat Nat.lt_0_1). cbv beta in He. eapply Rle_trans; [exact He|]. apply Ex. lia.
Qed.

(** A step size below the spacing of the times. *)
(** 2^-60 *)
Definition tiny_h : f64 := S754_finite false 4503599627370496 (-112).
Definition stall_step : stepfn2 (T := f64) := do_step2 bogacki_shampine23 (fun _ _ => Ret (mkMatrix 1 1 [zero])).
(** 2 *)
Definition f_two : f64 := S754_finite false 4503599627370496 (-51).
Lemma stall_loop pw n : pw zero (@half f64 (F64_pops pw)) = zero ->
  forall fuel k tv xv, (k <= n)%nat -> (n <= fuel + k)%nat ->
  exists tv' xv', @adapt_loop f64 F64_ops (F64_pops pw) (mkPC n tiny_h (lit 4 5) (lit 1 1000) (lit 3 1) (lit 1 100000) (lit 1 100)) stall_step
    (div one (add (of_Z 3) one)) f_two fuel tv xv one decay_init tiny_h k = Ret (Some (tv', xv', one)).
Proof.
  intros Hpw. induction fuel as [|fuel IH]; intros k tv xv Hk Hf; cbn [adapt_loop n_max].
  - replace (k <? n)%nat with false by (symmetry; apply Nat.ltb_ge; lia). cbn [andb]. eauto.
  - destruct (k <? n)%nat eqn:Ek; cbn [andb]; [|eauto]. apply Nat.ltb_lt in Ek.
    change (ltb (@one f64 F64_ops) f_two) with true. cbv iota zeta.
    replace (tmin tiny_h (sub f_two one)) with tiny_h by (vm_compute; reflexivity).
    replace (stall_step one decay_init tiny_h) with (Ret (decay_init, decay_init)) by (vm_compute; reflexivity). cbn [bind fst snd].
    replace (@calc_error f64 F64_ops (F64_pops pw) _ decay_init decay_init) with (Ret (zero : f64)) by (symmetry; change (Ret (pw zero (@half f64 (F64_pops pw))) = Ret (zero : f64)); f_equal; exact Hpw).
    cbn [bind]. change (leb (@zero f64 F64_ops) one) with true. change (negb (eqb (@zero f64 F64_ops) zero)) with false. cbv iota.
    replace (add one tiny_h) with (one : f64) by (vm_compute; reflexivity). apply IH; lia.
Qed.
Lemma stalls pw n fuel : pw zero (@half f64 (F64_pops pw)) = zero -> (n <= fuel)%nat ->
  @adapt_solve f64 F64_ops (F64_pops pw) (mkPC n tiny_h (lit 4 5) (lit 1 1000) (lit 3 1) (lit 1 100000) (lit 1 100))
    (do_step2 bogacki_shampine23 (fun _ _ => Ret (mkMatrix 1 1 [zero]))) (fst bogacki_shampine23_order) fuel one f_two decay_init = Ret (Some None).
Proof.
  intros Hpw Hf. unfold adapt_solve. change (ltb f_two (@one f64 F64_ops)) with false. cbv iota zeta.
  destruct (stall_loop pw n Hpw fuel 0 [one] [decay_init] ltac:(lia) ltac:(lia)) as (tv & xv & E). cbn [h_0].
  change (Z.of_nat (fst bogacki_shampine23_order)) with 3%Z. fold stall_step. rewrite E. reflexivity.
Qed.
