(** Property theorems C94-C96: which loops end in binary64.

    Reading guide.  [fvalid], [ffin], [fval] (F64_spec.v): a binary64 datum, finite, its real value.
    [Ret None]: not finished within [fuel] rounds of the loop; a call that is [Ret None] for every fuel
    never comes back.  [computes func n m F], [computes_mat jac n p n J] (Optim_spec.v): the user's
    function and Jacobian, without panics; the minimised number is [F g 0], its gradient [J g 0].
    [pw] is the platform's [powf], [E] the other elementary functions: arbitrary. *)
From Coq Require Import Arith Lia List Bool ZArith Reals Lra SpecFloat.
From Flocq Require Import Core IEEE754.BinarySingleNaN.
From Verif Require Import Outcome Scalar RealOps Elem_model Int_model Matrix_model Vector_model LU_model Decomp_model Ode_model Special_model Stat_model Optim_model
  Matrix_spec F64_spec Optim_spec Ode_spec Matrix_proofs Vector_proofs Ode_proofs F64Flocq F64Err_proofs F64Grid_proofs F64Term_proofs F64Multi_proofs.
Import ListNotations.
Local Open Scope R_scope.

(** * C94: line searches *)

(** [Gradient::minimize] comes back, after at most 1076 trials per iteration: the step size halves until
    it underflows to zero.  Needed of the objective: equal ([==]) points give equal values; at the
    points visited the value is not NaN and the gradient is finite. *)
Theorem C94_gradient : forall pw func jac n m p F J, computes func n m F -> computes_mat jac n p n J ->
  (0 < m)%nat -> (0 < p)%nat -> (0 < n)%nat ->
  (forall g h, (forall i, (i < n)%nat -> eqb (g i) (h i) = true) -> F g 0%nat <> S754_nan -> eqb (F g 0%nat) (F h 0%nat) = true) ->
  forall sigma, ffin sigma = true -> forall fuel, (1076 <= fuel)%nat -> forall iters x0 g0, is_col x0 n g0 ->
  (forall k x g, (k < iters)%nat -> @grad_min f64 F64_ops (F64_pops pw) k fuel sigma func jac x0 = Ret (Some x) -> is_col x n g ->
     F g 0%nat <> S754_nan /\ forall i, (i < n)%nat -> g i <> S754_nan /\ ffin (J g 0%nat i) = true) ->
  exists x g, @grad_min f64 F64_ops (F64_pops pw) iters fuel sigma func jac x0 = Ret (Some x) /\ is_col x n g.
Proof. intros pw func jac n m p F J HF HJ Hm Hp Hn HE sigma Hs fuel Hf. exact (grad_min_f64 pw func jac n m p F J HF HJ Hm Hp Hn HE sigma Hs fuel Hf). Qed.
Print Assumptions C94_gradient.

(** [Newton::minimize] likewise, where [solve] of the Hessian and the negative gradient reports an error or
    returns a finite vector; here the value may even be NaN. *)
Theorem C94_newton : forall pw func jac n m p F J, computes func n m F -> computes_mat jac n p n J ->
  (0 < m)%nat -> (0 < p)%nat -> (0 < n)%nat ->
  (forall g h, (forall i, (i < n)%nat -> eqb (g i) (h i) = true) -> F g 0%nat <> S754_nan -> eqb (F g 0%nat) (F h 0%nat) = true) ->
  forall sigma, ffin sigma = true -> forall fuel, (1076 <= fuel)%nat -> forall rho hess iters x0 g0, is_col x0 n g0 ->
  (forall k x g, (k < iters)%nat -> @newton_min f64 F64_ops (F64_pops pw) k fuel sigma rho func jac hess x0 = Ret (Some x) -> is_col x n g ->
     (forall i, (i < n)%nat -> g i <> S754_nan /\ ffin (J g 0%nat i) = true) /\
     exists A, hess x = Ret A /\ forall b, is_col b n (fun i => neg (J g 0%nat i)) ->
       solve_vec A b = Ret Err \/ exists s S, solve_vec A b = Ret (Ok s) /\ is_col s n S /\ forall i, (i < n)%nat -> ffin (S i) = true) ->
  exists x g, @newton_min f64 F64_ops (F64_pops pw) iters fuel sigma rho func jac hess x0 = Ret (Some x) /\ is_col x n g.
Proof. intros pw func jac n m p F J HF HJ Hm Hp Hn HE sigma Hs fuel Hf. exact (newton_min_f64 pw func jac n m p F J HF HJ Hm Hp Hn HE sigma Hs fuel Hf). Qed.
Print Assumptions C94_newton.

(** Without the condition on NaN the claim is false: if the objective is NaN at the start, the first line
    search of [Gradient::minimize] never ends. *)
Theorem C94_gradient_nan_refuted : forall pw func jac n m p F J, computes func n m F -> computes_mat jac n p n J ->
  (0 < m)%nat -> (0 < p)%nat -> (0 < n)%nat ->
  forall sigma iters fuel x0 g0, is_col x0 n g0 -> F g0 0%nat = S754_nan ->
  @grad_min f64 F64_ops (F64_pops pw) (S iters) fuel sigma func jac x0 = Ret None.
Proof. exact grad_min_nan. Qed.
Print Assumptions C94_gradient_nan_refuted.

(** The square function, its derivative and its second derivative meet the hypotheses: one iteration from 3. *)
Example C94_example : forall pw (rho : f64),
  let func := fun x : vector f64 => Ret (mapply (fun v => mul v v) x) in
  let jac := fun x : vector f64 => Ret (mapply (fun v => add v v) x) in
  let hess := fun _ : vector f64 => Ret (mkMatrix 1 1 [add one one]) in
  let three := add one (add one one) in
  (exists x g, @grad_min f64 F64_ops (F64_pops pw) 1 1076 (lit 1 4) func jac (mkMatrix 1 1 [three]) = Ret (Some x) /\ is_col x 1 g) /\
  (exists x g, @newton_min f64 F64_ops (F64_pops pw) 1 1076 (lit 1 4) rho func jac hess (mkMatrix 1 1 [three]) = Ret (Some x) /\ is_col x 1 g) /\
  forall fuel, @grad_min f64 F64_ops (F64_pops pw) 1 fuel (lit 1 4) func jac (mkMatrix 1 1 [S754_nan]) = Ret None.
Proof.
  intros pw rho func jac hess three.
  assert (HF : computes func 1 1 (fun g i => mul (g i) (g i))) by (intros x g Hx; eexists; split; [reflexivity|]; exact (mapply_spec _ x 1 1 _ Hx)).
  assert (HJ : computes_mat jac 1 1 1 (fun g i j => add (g 0%nat) (g 0%nat))).
  { intros x g Hx. eexists. split; [reflexivity|]. eapply is_mat_ext; [|exact (mapply_spec _ x 1 1 _ Hx)]. intros i j Hi Hj. replace i with 0%nat by lia. reflexivity. }
  assert (HE : forall g h : nat -> f64, (forall i, (i < 1)%nat -> eqb (g i) (h i) = true) -> mul (g 0%nat) (g 0%nat) <> S754_nan -> eqb (mul (g 0%nat) (g 0%nat)) (mul (h 0%nat) (h 0%nat)) = true).
  { intros g h Hgh Hn. destruct (feqb_eq_or_zero _ _ (Hgh 0%nat ltac:(lia))) as [<-|((s & ->) & (s' & ->))]; [apply feqb_refl; exact Hn|destruct s, s'; reflexivity]. }
  assert (Hcol : forall v : f64, is_col (mkMatrix 1 1 [v]) 1 (fun _ => v)).
  { intros v. split; [reflexivity|]. split; [reflexivity|]. intros i j Hi Hj. replace i with 0%nat by lia. replace j with 0%nat by lia. reflexivity. }
  assert (Hval : forall x g, is_col (mkMatrix 1 1 [x : f64]) 1 g -> g 0%nat = x).
  { intros x g Hg. pose proof (col_get _ _ _ 0 Hg ltac:(lia)) as G. rewrite (col_get _ _ _ 0 (Hcol x) ltac:(lia)) in G. injection G as <-. reflexivity. }
  assert (Fs : ffin (lit 1 4 : f64) = true) by (vm_compute; reflexivity).
  split; [|split].
  - apply (C94_gradient pw func jac 1 1 1 _ _ HF HJ) with (g0 := fun _ => three); try lia; try assumption; [apply Hcol|].
    intros k x g Hk E Hx. replace k with 0%nat in E by lia. cbn [grad_min] in E. injection E as <-. apply Hval in Hx. rewrite Hx. split; [vm_compute; discriminate|].
    intros i Hi. replace i with 0%nat by lia. rewrite Hx. split; [vm_compute; discriminate|vm_compute; reflexivity].
  - apply (C94_newton pw func jac 1 1 1 _ _ HF HJ) with (g0 := fun _ => three); try lia; try assumption; [apply Hcol|].
    intros k x g Hk E Hx. replace k with 0%nat in E by lia. cbn [newton_min] in E. injection E as <-. apply Hval in Hx. rewrite Hx. split.
    + intros i Hi. replace i with 0%nat by lia. rewrite Hx. split; [vm_compute; discriminate|vm_compute; reflexivity].
    + eexists. split; [reflexivity|]. intros b Hb. right.
      assert (Eb : b = mkMatrix 1 1 [neg (add three three)]).
      { destruct b as [rb cb db]. destruct Hb as (D & L & Hd). cbn [data] in L. injection D as -> ->. destruct db as [|v [|w db]]; try discriminate L.
        specialize (Hd 0%nat 0%nat ltac:(lia) ltac:(lia)). rewrite (proj2 (proj2 (Hcol v)) 0%nat 0%nat) in Hd by lia. injection Hd as ->. reflexivity. }
      subst b. exists (mkMatrix 1 1 [neg three]), (fun _ => neg three). split; [vm_compute; reflexivity|]. split; [apply Hcol|intros; vm_compute; reflexivity].
  - intros fuel. apply (C94_gradient_nan_refuted pw func jac 1 1 1 _ _ HF HJ) with (g0 := fun _ => S754_nan); try lia; [apply Hcol|reflexivity].
Qed.

(** * C95: solvers of differential equations *)

(** Adams-Bashforth and BDF come back (or panic) after a number of rounds that does not depend on the
    equation, if the step size is at least 2^-49 of the larger end point of the interval. *)
Theorem C95_multistep_returns : forall h t0 t1 k, fvalid h -> ffin h = true -> fvalid t1 -> ffin t1 = true -> fvalid t0 -> ffin t0 = true ->
  Rabs (fval t0) <= bpow radix2 1018 -> Rabs (fval t1) <= bpow radix2 1018 -> fval h <= bpow radix2 1018 -> fval t0 <= fval t1 ->
  0 < fval h -> bpow radix2 (-49) * Rmax (Rabs (fval t0)) (Rabs (fval t1)) <= fval h ->
  exists N, forall f fuel init, (N <= fuel)%nat -> ab_solve f h t1 fuel k t0 init <> Ret None /\ bdf_solve f h t1 fuel k t0 init <> Ret None.
Proof.
  intros h t0 t1 k Vh Fh V1 F1 V0 F0 B0 B1 Bh H01 Hh Hr. destruct (ms_ends h t1 t0 k Vh Fh V1 F1 V0 F0 B0 B1 Bh H01 Hh Hr) as (N & HN).
  exists N. intros f fuel init Hf. split; apply HN; exact Hf.
Qed.
Print Assumptions C95_multistep_returns.

(** If the step size is at most 2^-55 of the start time they never return a result, whatever the equation:
    adding the step leaves the time unchanged. *)
Theorem C95_absorbed_step_refuted : forall h t0 t1 k, fvalid h -> ffin h = true -> fvalid t1 -> ffin t1 = true -> fvalid t0 -> ffin t0 = true ->
  0 < fval h <= bpow radix2 (-55) * Rabs (fval t0) -> 2 / 10000000000 <= fval t1 - fval t0 <= bpow radix2 1023 ->
  forall f fuel init r, ab_solve f h t1 fuel k t0 init <> Ret (Some r) /\ bdf_solve f h t1 fuel k t0 init <> Ret (Some r).
Proof.
  intros h t0 t1 k Vh Fh V1 F1 V0 F0 Hh Ht f fuel init r. split; apply (ms_endless h t1 t0 k Vh Fh V1 F1 V0 F0 Hh Ht).
Qed.
Print Assumptions C95_absorbed_step_refuted.

(** The adaptive solver never comes back if the first component of the right-hand side is NaN at the start
    (NaN^0.5 = NaN): every step is rejected, and rejected steps are not counted. *)
Theorem C95_adaptive_nan_refuted : forall pw (p : pcontrol (T := f64)) (B : tableau2 f64) q f m (t0 t1 : f64) init g k0 K,
  pw S754_nan (S754_finite false 4503599627370496 (-53)) = S754_nan -> (0 < m)%nat -> (0 < n_max p)%nat ->
  (1 <= length (tb2 B))%nat -> tableau_ok (ta2 B) (tb2 B) (tc2 B) -> (length (tbs2 B) <= length (tb2 B))%nat ->
  is_col init m g -> rhs_total f m -> f t0 init = Ret k0 -> is_col k0 m K -> K 0%nat = S754_nan -> ltb t0 t1 = true -> ltb t1 t0 = false ->
  forall fuel, @adapt_solve f64 F64_ops (F64_pops pw) p (do_step2 B f) q fuel t0 t1 init = Ret None.
Proof. exact adapt_solve_nan. Qed.
Print Assumptions C95_adaptive_nan_refuted.
Example C95_example :
  let h := lit 1 10 : f64 in
  (fvalid h /\ ffin h = true /\ 0 < fval h /\ bpow radix2 (-49) * Rmax (Rabs (fval zero)) (Rabs (fval one)) <= fval h) /\
  (let big := S754_finite false 4503599627370496 3 in let next := S754_finite false 4503599627370497 3 in
   fvalid big /\ fvalid next /\ 0 < fval one <= bpow radix2 (-55) * Rabs (fval big) /\ fval next - fval big = 8) /\
  (1 <= length (tb2 (dormand_prince : tableau2 f64)))%nat /\ tableau_ok (ta2 (dormand_prince : tableau2 f64)) (tb2 dormand_prince) (tc2 dormand_prince) /\
  (length (tbs2 (dormand_prince : tableau2 f64)) <= length (tb2 (dormand_prince : tableau2 f64)))%nat.
Proof.
  cbv zeta. split; [|split; [|repeat split; cbn; lia]].
  - replace (lit 1 10 : f64) with (S754_finite false 7205759403792794 (-56)) by (vm_compute; reflexivity).
    split; [reflexivity|]. split; [reflexivity|]. rewrite fval_one. change (fval zero) with 0. rewrite Rabs_R0, Rabs_R1, Rmax_right by lra.
    unfold fval, SF2R, F2R. simpl. lra.
  - split; [reflexivity|]. split; [reflexivity|]. rewrite fval_one. unfold fval, SF2R, F2R. simpl. rewrite Rabs_pos_eq by lra. lra.
Qed.

(** * C96: special functions *)

(** [digamma] comes back for every binary64 argument of at least -2^52, and for NaN and infinity ... *)
Theorem C96_digamma_returns : forall (E : EOps f64) x, fvalid x -> (ffin x = true -> - bpow radix2 52 <= fval x) -> x <> S754_infinity true ->
  exists N w, forall fuel, (N <= fuel)%nat -> sdigamma fuel x = Some w.
Proof. intros E. exact digamma_f64_ends. Qed.
Print Assumptions C96_digamma_returns.
(** ... and never for arguments of at most -2^55 and for minus infinity: adding one leaves them unchanged. *)
Theorem C96_digamma_refuted : forall (E : EOps f64) fuel x, fvalid x -> (ffin x = true /\ fval x <= - bpow radix2 55 \/ x = S754_infinity true) ->
  sdigamma fuel x = None.
Proof.
  intros E fuel x V [(F & H)| ->]; unfold sdigamma; [rewrite digamma_endless by assumption|rewrite digamma_neg_inf]; reflexivity.
Qed.
Print Assumptions C96_digamma_refuted.

(** [gamma_lr] never comes back if one argument is NaN (and the other is in the domain), nor at x = infinity. *)
Theorem C96_gamma_refuted : forall (P : POps f64) (E : EOps f64) fuel (a x : f64),
  (eqb a zero = false -> sgamma_lr (T := f64) fuel a S754_nan = Ret None) /\
  (leb x zero = false -> sgamma_lr (T := f64) fuel S754_nan x = Ret None) /\
  (tln (T := f64) (S754_infinity false) = S754_infinity false -> ltb zero a = true -> ffin a = true -> sgamma_lr (T := f64) fuel a (S754_infinity false) = Ret None).
Proof. intros P E fuel a x. split; [apply gamma_lr_nan_x|]. split; [apply gamma_lr_nan_a|]. apply gamma_lr_inf. Qed.
Print Assumptions C96_gamma_refuted.
(** So the distribution function of a gamma distribution with finite parameters has no value at infinity. *)
Theorem C96_gamma_cdf_refuted : forall (P : POps f64) (E : EOps f64), tln (T := f64) (S754_infinity false) = S754_infinity false ->
  forall (a b : f64) d, ffin a = true -> ffin b = true -> gammad_new a b = Ret d ->
  forall fuel v, @gammad_cdf f64 F64_ops (impl_special fuel) d (S754_infinity false) <> Ret v.
Proof.
  intros P E Hln a b d Fa Fb Hd fuel v. unfold gammad_new in Hd. destruct (leb a zero) eqn:Ha; [discriminate|]. destruct (leb b zero) eqn:Hb; [discriminate|].
  cbn [orb] in Hd. injection Hd as <-. unfold gammad_cdf. change (eqb (S754_infinity false : f64) zero) with false. cbv iota. cbn [gd_a gd_b x_gamma_lr impl_special].
  destruct b as [s|s| |s m e]; try discriminate Fb; try (destruct s; discriminate Hb). destruct s; [discriminate Hb|].
  change (mul (S754_finite false m e : f64) (S754_infinity false)) with (S754_infinity false : f64).
  destruct a as [s|s| |s m' e']; try discriminate Fa; try (destruct s; discriminate Ha). destruct s; [discriminate Ha|].
  rewrite (gamma_lr_inf fuel (S754_finite false m' e') Hln eq_refl eq_refl). discriminate.
Qed.
Print Assumptions C96_gamma_cdf_refuted.
(** [beta_inc_reg] never comes back if one of its arguments is NaN and the others are in the domain.  (In a build
    with overflow checks it panics after 2^31 rounds instead: the counter [ns] underflows.) *)
Theorem C96_beta_refuted : forall (P : POps f64) (E : EOps f64) fuel (x a b : f64), fvalid x ->
  (x = S754_nan /\ leb a zero = false /\ leb b zero = false) \/
  (ltb zero x = true /\ ltb x one = true /\ (a = S754_nan /\ leb b zero = false \/ leb a zero = false /\ b = S754_nan)) ->
  sbeta_inc_reg (T := f64) fuel x a b = Ret None.
Proof. intros P E. exact beta_inc_nan. Qed.
Print Assumptions C96_beta_refuted.
Example C96_example : (fvalid (lit 1 2) /\ ltb zero (lit 1 2 : f64) = true /\ ltb (lit 1 2 : f64) one = true /\ leb (one : f64) zero = false) /\
  gammad_new (one : f64) one = Ret (mkGammaD one one) /\
  (let x := S754_finite true 4503599627370496 3 in fvalid x /\ ffin x = true /\ fval x <= - bpow radix2 55).
Proof. split; [vm_compute; auto|]. split; [reflexivity|]. split; [reflexivity|]. split; [reflexivity|]. unfold fval, SF2R, F2R. simpl. lra. Qed.
