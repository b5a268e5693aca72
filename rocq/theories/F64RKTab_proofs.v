(** The shipped fixed-step tableaux are the rounded real tableaux. *)
From Coq Require Import ZArith SpecFloat Reals Lra Lia Arith List Bool.
From Flocq Require Import Core.
From Verif Require Import Outcome Scalar RealOps Matrix_model Vector_model Matrix_spec Ode_model Ode_spec OdeConv_spec Optim_spec OdeOrder_proofs F64_spec F64Flocq F64Err_proofs F64Grid_proofs F64Ode_spec F64RK_proofs.
Import ListNotations.
Local Open Scope R_scope.

Lemma bpow_neg_Z e : (0 <= e)%Z -> bpow radix2 (- e) = / IZR (2 ^ e).
Proof. intros H. rewrite bpow_opp, <- IZR_Zpower by exact H. reflexivity. Qed.

(** m 2^-e is within one rounding of p/q. *)
Lemma close_lit s m e p q : fvalid (S754_finite s m (- e)) -> (0 <= e)%Z -> (0 < q)%Z ->
  (Z.abs (cond_Zopp s (Zpos m) * q - p * 2 ^ e) * 2 ^ 53 <= Z.abs p * 2 ^ e)%Z -> close64 (S754_finite s m (- e)) (IZR p / IZR q).
Proof.
  intros V He Hq H. split; [exact V|]. split; [reflexivity|].
  assert (Ef : fval (S754_finite s m (- e)) = IZR (cond_Zopp s (Zpos m)) / IZR (2 ^ e)).
  { unfold fval, Rdiv. rewrite <- bpow_neg_Z by exact He. reflexivity. }
  assert (Q : 0 < IZR q) by (apply IZR_lt; exact Hq).
  assert (E2 : 0 < IZR (2 ^ e)) by (apply IZR_lt; apply Z.pow_pos_nonneg; lia).
  rewrite Ef. set (c := cond_Zopp s (Zpos m)) in *.
  replace (IZR c / IZR (2 ^ e) - IZR p / IZR q) with ((IZR c * IZR q - IZR p * IZR (2 ^ e)) / (IZR (2 ^ e) * IZR q)) by (field; split; lra).
  unfold Rdiv. rewrite !Rabs_mult, (Rabs_pos_eq (/ (_ * _))), (Rabs_pos_eq (/ IZR q)) by (apply Rlt_le, Rinv_0_lt_compat; try apply Rmult_lt_0_compat; assumption).
  apply IZR_le in H. rewrite !mult_IZR, abs_IZR, minus_IZR, !mult_IZR, abs_IZR in H.
  replace (uro * (Rabs (IZR p) * / IZR q)) with (Rabs (IZR p) * IZR (2 ^ e) * uro * / (IZR (2 ^ e) * IZR q)) by (field; split; lra).
  apply Rmult_le_compat_r; [apply Rlt_le, Rinv_0_lt_compat, Rmult_lt_0_compat; assumption|].
  rewrite uro_val. change (IZR (2 ^ 53)) with 9007199254740992 in H. lra.
Qed.
Lemma close_zero : close64 zero 0.
Proof. split; [reflexivity|]. split; [reflexivity|]. unfold fval. cbn. rewrite Rminus_0_r, Rabs_R0. lra. Qed.
Lemma close_one : close64 one 1.
Proof. replace 1 with (IZR 1 / IZR 1) by field. change (@one f64 F64_ops) with (S754_finite false 4503599627370496 (- (52))). apply close_lit; [reflexivity|lia|lia|vm_compute; discriminate]. Qed.
Lemma close_mone : close64 (neg one) (- (1)).
Proof. replace (- (1)) with (IZR (-1) / IZR 1) by field. change (neg (@one f64 F64_ops)) with (S754_finite true 4503599627370496 (- (52))). apply close_lit; [reflexivity|lia|lia|vm_compute; discriminate]. Qed.

Ltac cl := cbv beta iota delta [a_of b_of c_of nth Nat.mul Nat.add Nat.div Nat.sub Nat.divmod fst snd];
  lazymatch goal with
  | |- close64 (@zero _ _) _ => apply close_zero
  | |- close64 (@one _ _) _ => apply close_one
  | |- close64 (@neg _ _ _) _ => apply close_mone
  | |- close64 ?x ?r => rewrite ?lit_R; let x' := eval vm_compute in x in change x with x';
      lazymatch x' with S754_finite ?s ?m ?e => let e' := eval vm_compute in (- e)%Z in change (S754_finite s m e) with (S754_finite s m (- e')) end;
      apply close_lit; [reflexivity|lia|lia|vm_compute; discriminate]
  end.
Ltac cases_lt j := repeat (destruct j as [|j]; [|try (exfalso; lia)]).
Ltac rsum := cbv beta iota delta [a_of b_of c_of nth Nat.mul Nat.add Nat.div Nat.sub Nat.divmod fst snd sumn]; rewrite ?lit_R;
  change (@add R R_ops) with Rplus; change (@zero R R_ops) with 0; change (@one R R_ops) with 1; change (@neg R R_ops) with Ropp; unfold Rabs;
  repeat (let h := fresh in destruct (Rcase_abs _) as [h|h]); lra.
Ltac tab := unfold rounded_tableau; cbv beta iota zeta delta [explicit_euler midpoint heun2 ralston2 heun3 kutta3 ralston3 ssprk3 rungekutta4 kutta38 tb ta tc length];
  split; [reflexivity|]; split; [lia|]; split; [split; cbn; lia|]; split; [split; cbn; lia|];
  split; [let j := fresh "j" in let l := fresh "l" in let H := fresh "H" in intros j l H; cases_lt j; (cases_lt l; try cl)|];
  split; [let j := fresh "j" in let H := fresh "H" in intros j H; cases_lt j; cl|];
  split; [let j := fresh "j" in let H := fresh "H" in intros j H; cases_lt j; (split; [cl|rsum])|];
  split; [let j := fresh "j" in let H := fresh "H" in intros j H; cases_lt j; rsum|rsum].
Lemma rk4_rounded : rounded_tableau rungekutta4 rungekutta4 3.
Proof. tab. Qed.

Lemma fixed_rounded : Forall (fun p => rounded_tableau (fst p) (snd p) 3) fixed_pairs.
Proof. repeat (apply Forall_cons; [cbn [fst snd]; tab|]). apply Forall_nil. Qed.

Lemma rk_step_f64 B64 B A f fR m F lo hi X K L Lt eps w Mt t s x g xR Xg :
  rounded_tableau B64 B A ->
  rhs_total f m -> box_evaluates f m F lo hi X eps -> (forall t, computes (fR t) m m (F t)) -> box_regular m F lo hi X K L Lt ->
  0 <= L -> 0 <= Lt -> 0 <= eps -> 0 <= K -> 0 <= w -> L * w * A <= / 2 ->
  A * (K + eps) <= bpow radix2 990 -> X <= bpow radix2 1000 -> Mt + w <= bpow radix2 1000 -> 0 <= Mt ->
  let xi := uro * (X + 39 * w * (A * (K + eps))) + (33 * w + 2) * eta64 in
  let theta := uro * (Mt + 4 * w) + 2 * eta64 in
  fvalid t -> ffin t = true -> Rabs (fval t) <= Mt -> lo + w + theta <= fval t <= hi - w - theta ->
  fvalid s -> ffin s = true -> Rabs (fval s) <= w ->
  fcol x m g -> is_col xR m (fun l => fval (g l)) -> within m (fun l => fval (g l)) Xg -> 0 <= Xg -> Xg + w * (A * (K + eps)) + xi <= X ->
  exists x' g' xR' gR', do_step B64 f t x s = Ret x' /\ fcol x' m g' /\ do_step B fR (fval t) xR (fval s) = Ret xR' /\ is_col xR' m gR' /\
    within m (fun l => fval (g' l) - gR' l) (xi + 2 * w * A * (eps + Lt * theta + L * xi)).
Proof.
  intros HB Htot Hf HfR HF L0 Lt0 e0 K0 w0 Hq KB XB TB Mt0 xi theta Vt Ft Bt It Vs Fs Bs Hx HxR Bg Xg0 HX.
  destruct (rk_step_main B64 B A f fR m F lo hi X K L Lt eps w Mt HB Htot Hf HfR HF L0 Lt0 e0 K0 w0 Hq KB XB TB Mt0 t s (fval s) x g xR (fun l => fval (g l)) Xg 0 0 Vt Ft Bt It Vs Fs Bs Bs)
    as (x' & g' & xR' & gR' & R1 & R2 & R3 & R4 & R5 & R6); try assumption; try lra.
  - rewrite Rminus_eq_0, Rabs_R0. lra.
  - intros l Hl. rewrite Rminus_eq_0, Rabs_R0. lra.
  - exists x', g', xR', gR'. repeat (split; [assumption|]). intros l Hl. eapply Rle_trans; [apply (R5 l Hl)|]. fold xi theta. right. ring.
Qed.

Lemma rk_shipped h t0 t1 M n B64 B f fR m F lo hi X XR K L Lt eps init g0 initR :
  fvalid h -> fvalid t0 -> fvalid t1 -> ffin h = true -> ffin t0 = true -> ffin t1 = true ->
  0 < fval h -> fval t0 <= fval t1 -> Rabs (fval t0) <= M -> Rabs (fval t1) <= M -> M <= bpow radix2 1000 ->
  (fval t1 - fval t0) / fval h + 2 <= INR n -> INR n <= IZR (2 ^ 47) ->
  In (B64, B) fixed_pairs ->
  let A := 3 in
  let w := fval h + 4 * (INR n + 1) * uro * M in
  let xi := uro * (X + 39 * w * (A * (K + eps))) + (33 * w + 2) * eta64 in
  let theta := uro * (9 / 8 * M + 4 * w) + 2 * eta64 in
  let ups := 2 * uro * M in
  let r := xi + A * K * ups + 2 * w * A * (eps + Lt * (theta + ups) + L * (xi + A * K * ups)) in
  let q := 2 * L * A * w in
  lo + 2 * w + theta <= fval t0 -> fval t1 + 2 * w + theta <= hi ->
  rhs_total f m -> box_evaluates f m F lo hi X eps -> (forall t, computes (fR t) m m (F t)) -> box_regular m F lo hi X K L Lt ->
  0 <= L -> 0 <= Lt -> 0 <= eps -> 0 <= K ->
  L * w * A <= / 2 -> A * (K + eps) <= bpow radix2 990 -> X <= bpow radix2 1000 -> 9 / 8 * M + w <= bpow radix2 1000 ->
  fcol init m g0 -> is_col initR m (fun l => fval (g0 l)) -> 0 <= XR -> 0 <= X ->
  XR + w * (A * (K + eps)) + xi + exp (INR n * q) * (INR n * r) <= X ->
  forall X0, within m (fun l => fval (g0 l)) X0 -> X0 + INR n * (w * (A * K)) <= XR ->
  exists N tv xv, (N <= n)%nat /\ fixed_solve h (do_step B64 f) t0 t1 init = Ret (tv, xv) /\ length tv = S N /\ length xv = S N /\
    forall i, (i <= N)%nat -> exists g xR gR, fcol (nth i xv (mkMatrix 0 0 [])) m g /\
      exact_run B fR (fun k => fval (nth k tv zero)) initR i = Ret xR /\ is_col xR m gR /\
      within m (fun l => fval (g l) - gR l) (exp (INR i * q) * (INR i * r)).
Proof.
  intros Vh V0 V1 Fh F0 F1 Hh Ht M0 M1 MB Hn Hn47 HIn A w xi theta ups r q Hlo Hhi Htot Hf HfR HF L0 Lt0 E0 K0 Hq KB XB TB Hi HiR X00 XP HX X0 HX0 HXR.
  pose proof (proj1 (Forall_forall _ _) fixed_rounded _ HIn) as HB. cbn [fst snd] in HB.
  apply (rk_run_apriori h t0 t1 M n B64 B 3 f fR m F lo hi X XR K L Lt eps init g0 initR Vh V0 V1 Fh F0 F1 Hh Ht M0 M1 MB Hn Hn47 HB Hlo Hhi Htot Hf HfR HF L0 Lt0 E0 K0 Hq KB XB TB Hi HiR X00 XP HX X0 HX0 HXR).
Qed.
