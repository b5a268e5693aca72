(** Property theorems C64, C65, C75-C77: error function, digamma, gamma, beta and hypergeometric functions.

    Reading guide.  The functions contain loops; [f k x] is the function with at most k loop iterations,
    [Ret None] means that k was too small, [Panic] that the code panics.  "exists v N, forall k >= N,
    f k x = Ret (Some v)" says that the code terminates with the value v.  [erf_true], [euler_gamma],
    [is_gamma_lr] (Stat_spec.v) are the mathematical functions, [gauss_term], [lower_gamma_term]
    (Special_spec.v) the terms of the two power series.  [inf] is the infinity erfinv returns at 1. *)
From Coq Require Import Arith Lia List Bool ZArith Reals Lra Psatz.
From Coquelicot Require Import Coquelicot.
From Verif Require Import Outcome Scalar RealOps Int_model Ode_model Special_model Special_spec Stat_spec Normal_proofs Special_proofs GammaTerm_proofs GammaFun_proofs GammaDist_proofs StatExtra_proofs SpecialNew_proofs Soper_proofs Digamma_proofs.
From Verif Require Import Stirling_proofs LanczosAcc_proofs LnGammaAcc_proofs Reflection_proofs GammaAll_proofs GammaLr_proofs BetaAcc_proofs TMoments_proofs TCdf_proofs GaussSum_proofs ErfInvMain_proofs ErfInv32_proofs GammaInv_proofs.
Local Open Scope R_scope.

(** * C64: error functions *)
Theorem C64_erf_total : forall x : R, (exists v N, forall k, (N <= k)%nat -> serf k x = Ret (Some v)) /\ forall k, serf k x <> Panic.
Proof. intro x. split; [apply serf_limit|intro; apply serf_never_panics]. Qed.
Print Assumptions C64_erf_total.
Theorem C64_erf_odd : forall k (x v : R), serf k x = Ret (Some v) -> serf k (- x) = Ret (Some (- v)).
Proof. exact serf_odd. Qed.
Print Assumptions C64_erf_odd.
Theorem C64_erf_values : (forall k, serf k 0 = Ret (Some 0)) /\ forall k (x v : R), 1 < x -> serf k x = Ret (Some v) -> v <= 1.
Proof. split; [exact serf_0|intros k x v; apply serf_le_1]. Qed.
Print Assumptions C64_erf_values.
Theorem C64_erfc : forall k (x v : R), serf k x = Ret (Some v) ->
  serfc k x = Ret (Some (1 - v)) /\ serfc k (- x) = Ret (Some (1 + v)).
Proof.
  intros k x v E. split; [now apply serfc_ok|]. rewrite (serfc_ok k (- x) (- v)) by now apply serf_odd. do 2 f_equal. lra.
Qed.
Print Assumptions C64_erfc.
(** erf is the error function up to 5e-12 everywhere; for |x| > 1 up to 5e-12 of the distance to +-1. *)
Theorem C64_erf_accuracy : forall k (x v : R), serf k x = Ret (Some v) -> Rabs (v - erf_true x) <= 5 / 1000000000000 /\
  (1 < Rabs x -> Rabs (v - erf_true x) <= 5 / 1000000000000 * (1 - Rabs (erf_true x)) + 4 / 10 ^ 308).
Proof. exact serf_accuracy. Qed.
Print Assumptions C64_erf_accuracy.
Theorem C64_erfc_accuracy : forall k (x v : R), serfc k x = Ret (Some v) -> Rabs (v - (1 - erf_true x)) <= 5 / 1000000000000.
Proof. exact serfc_accuracy. Qed.
Print Assumptions C64_erfc_accuracy.
Theorem C64_erfinv : forall inf x : R,
  (Rabs x < 1 -> exists v, serfinv inf x = Ret v /\ serfinv inf (- x) = Ret (- v)) /\
  (1 < Rabs x -> serfinv inf x = Panic) /\ serfinv inf 1 = Ret inf /\ serfinv inf (- 1) = Ret (- inf).
Proof.
  intros inf x. split; [apply serfinv_odd|]. split; [apply serfinv_panic|]. destruct (serfinv_ends inf). now split.
Qed.
Print Assumptions C64_erfinv.
Theorem C64_erfcinv : forall inf x : R, (0 <= x <= 2 -> serfcinv inf x = serfinv inf (1 - x)) /\ (x < 0 \/ 2 < x -> serfcinv inf x = Panic).
Proof. intros inf x. split; [apply serfcinv_ok|apply serfcinv_panic]. Qed.
Print Assumptions C64_erfcinv.
(** erfinv inverts the error function: relative error 1e-9 in the argument. *)
Theorem C64_erfinv_accuracy : forall inf x : R, Rabs x < 1 ->
  exists v, serfinv inf x = Ret v /\ Rabs (erf_true v - x) <= 1 / 1000000000 * Rabs x.
Proof. exact serfinv_acc. Qed.
Print Assumptions C64_erfinv_accuracy.
Theorem C64_erfcinv_accuracy : forall inf x : R, 0 < x < 2 ->
  exists v, serfcinv inf x = Ret v /\ Rabs (1 - erf_true v - x) <= 1 / 1000000000 * Rabs (1 - x).
Proof.
  intros inf x Hx. destruct (serfinv_acc inf (1 - x)) as (v & E & K); [apply Rabs_def1; lra|]. exists v.
  rewrite serfcinv_ok by lra. split; [exact E|]. replace (1 - erf_true v - x) with (- (erf_true v - (1 - x))) by ring. now rewrite Rabs_Ropp.
Qed.
Print Assumptions C64_erfcinv_accuracy.
Example C64_erfinv_accuracy_example : Rabs (- 99 / 100) < 1 /\ 0 < 1 / 1000 < 2.
Proof. split; [apply Rabs_def1; lra|lra]. Qed.
(** The f32 erfinv is odd on (-1,1), infinite at the ends and panics beyond. *)
Theorem C64_erfinv_f32 : forall inf x : R,
  (Rabs x < 1 -> exists v, serfinv32 inf x = Ret v /\ serfinv32 inf (- x) = Ret (- v)) /\
  (1 < Rabs x -> serfinv32 inf x = Panic) /\ serfinv32 inf 1 = Ret inf /\ serfinv32 inf (- 1) = Ret (- inf).
Proof.
  intros inf x. split; [apply serfinv32_odd|]. split; [apply serfinv32_panic|]. destruct (serfinv32_ends inf). now split.
Qed.
Print Assumptions C64_erfinv_f32.
(** The single-precision erfinv is not an inverse of erf: erf(erfinv(1/2)) < 2/5 and the sign of
    erfinv(9/10) is wrong. *)
Theorem C64_erfinv_f32_refuted : forall inf : R, (exists v, serfinv32 inf (1 / 2) = Ret v /\ erf_true v < 2 / 5) /\
  (exists v, serfinv32 inf (9 / 10) = Ret v /\ v < 0 /\ erf_true v < 0).
Proof.
  intro inf. destruct (erfinv32_wrong inf) as [A (v & E & W)]. split; [exact A|]. exists v. repeat split; auto.
  destruct (serfinv32_neg inf) as (w & E' & W'). rewrite E in E'. apply Ret_inj in E'. subst. lra.
Qed.
Print Assumptions C64_erfinv_f32_refuted.
(** In the tail 15/16 < |x| <= 1 - e^-25 (every single-precision argument there is below that bound) the
    single-precision erfinv agrees with the double-precision one to 2e-7 and inverts erf to 2.3e-7. *)
Theorem C64_erfinv_f32_tail : forall inf x : R, 15 / 16 < Rabs x -> Rabs x <= 1 - exp (Ropp 25) ->
  exists v w, serfinv32 inf x = Ret v /\ serfinv inf x = Ret w /\ Rabs (v - w) <= 2 / 10000000 /\ Rabs (erf_true v - x) <= 23 / 100000000.
Proof. exact serfinv32_tail. Qed.
Print Assumptions C64_erfinv_f32_tail.
Example C64_erfinv_f32_tail_example : 15 / 16 < Rabs (- 24 / 25) /\ Rabs (- 24 / 25) <= 1 - exp (Ropp 25).
Proof.
  rewrite Rabs_left by lra. split; [lra|]. pose proof (exp_ineq1 25 ltac:(lra)). rewrite exp_Ropp.
  assert (/ exp 25 <= / 26) by (apply Rinv_le_contravar; lra). lra.
Qed.
Example C64_example : Rabs (1 / 2) < 1 /\ 1 < Rabs (-3) /\ exists v k, serf k 2 = Ret (Some v).
Proof.
  split; [rewrite Rabs_pos_eq; lra|]. split; [rewrite Rabs_left; lra|]. destruct (serf_limit 2) as (v & N & H). exists v, N. apply H. lia.
Qed.

(** * C65: digamma *)
Theorem C65_total : forall x : R, exists v N, forall k, (N <= k)%nat -> sdigamma k x = Some v.
Proof. exact sdigamma_limit. Qed.
Print Assumptions C65_total.
(** psi(x+1) = psi(x) + 1/x for the values returned, for every x below 17/2. *)
Theorem C65_recurrence : forall k k' (x v w : R), x < 17 / 2 -> sdigamma k x = Some v -> sdigamma k' (x + 1) = Some w -> w = v + 1 / x.
Proof.
  intros k k' x v w Hx Ev Ew. apply (sdigamma_fuel k' k) in Ew. apply (sdigamma_fuel k (S k')) in Ev.
  replace (k + S k')%nat with (S (k' + k)) in Ev by lia. rewrite sdigamma_rec, Ew in Ev by assumption. injection Ev as <-. lra.
Qed.
Print Assumptions C65_recurrence.
(** The result is within 6e-16 below the digamma function, Gauss's limit, wherever that exists; and it exists
    away from 0, -1, -2, ... *)
Theorem C65_accuracy : forall k (x v psi : R), is_digamma x psi -> sdigamma k x = Some v -> v <= psi <= v + 6 / 10000000000000000.
Proof. exact sdigamma_accuracy. Qed.
Print Assumptions C65_accuracy.
Theorem C65_digamma_exists : forall x : R, (forall k, x + INR k <> 0) -> exists psi, is_digamma x psi /\ forall psi', is_digamma x psi' -> psi' = psi.
Proof. intros x H. destruct (digamma_exists x H) as [psi D]. exists psi. split; [exact D|]. intros psi' D'. exact (is_digamma_unique x psi' psi D' D). Qed.
Print Assumptions C65_digamma_exists.
Example C65_example : 3 < 17 / 2 /\ exists k v k' w, sdigamma k 3 = Some v /\ sdigamma k' (3 + 1) = Some w.
Proof.
  split; [lra|]. destruct (sdigamma_limit 3) as (v & N & H). destruct (sdigamma_limit (3 + 1)) as (w & N' & H').
  exists N, v, N', w. split; [apply H|apply H']; lia.
Qed.

(** * C75: gamma and incomplete gamma functions *)
Theorem C75_gamma_domain : (forall z : R, z <> 0 -> exists g, sgamma z = Ret g) /\ @sgamma R _ _ _ 0 = Panic /\
  forall z g : R, 0 < z -> sgamma z = Ret g -> 0 < g.
Proof.
  split; [|split; [exact sgamma_zero|exact sgamma_ret]]. intros z Hz. destruct (Rle_dec (1 / 2) z) as [H|H].
  - eexists. now apply sgamma_ge.
  - eexists. apply sgamma_lt; [lra|assumption].
Qed.
Print Assumptions C75_gamma_domain.
Theorem C75_reflection : forall z g g' : R, sin (PI * z) <> 0 -> z <> 1 / 2 -> sgamma z = Ret g -> sgamma (1 - z) = Ret g' ->
  g * g' = PI / sin (PI * z).
Proof. exact sgamma_reflection. Qed.
Print Assumptions C75_reflection.
(** Euler's integral converges for every z > 0, and with the extension to negative arguments Gamma(z) exists
    and is unique for every z other than 0, -1, -2, ... *)
Theorem C75_gamma_exists : (forall z : R, 0 < z -> exists g, euler_gamma z g /\ is_gamma z g) /\
  forall z : R, (forall k, z + INR k <> 0) -> exists g, is_gamma z g /\ forall g', is_gamma z g' -> g' = g.
Proof.
  split.
  - intros z Hz. destruct (gamma_exists z Hz) as [g Hg]. exists g. split; [exact Hg|now apply euler_is_gamma].
  - intros z Hz. destruct (is_gamma_exists z Hz) as [g Hg]. exists g. split; [exact Hg|]. intros g' Hg'. exact (is_gamma_unique z g' g Hg' Hg).
Qed.
Print Assumptions C75_gamma_exists.
(** The crate's gamma is Gamma up to a relative error of 5e-12 wherever Gamma is defined. *)
Theorem C75_gamma_accuracy : forall z g : R, is_gamma z g -> exists v, sgamma z = Ret v /\ Rabs (v - g) <= 5 / 1000000000000 * Rabs g.
Proof. exact sgamma_accuracy. Qed.
Print Assumptions C75_gamma_accuracy.
(** ln_gamma is ln Gamma up to an absolute error of 4e-17 for every x > 0. *)
Theorem C75_ln_gamma_accuracy : forall x g : R, 0 < x -> euler_gamma x g -> Rabs (sln_gamma x - ln g) <= 4 / 100000000000000000.
Proof. exact sln_gamma_accuracy_pos. Qed.
Print Assumptions C75_ln_gamma_accuracy.
Example C75_gamma_example : euler_gamma 1 1 /\ is_gamma (- (1 / 2)) (- 2 * sqrt PI).
Proof.
  split; [exact (glr_gamma _ _ _ glr_1)|]. pose proof euler_gamma_half as H.
  replace (- 2 * sqrt PI) with (sqrt PI / (- (1 / 2))) by field. apply is_gamma_pred; [lra|].
  replace (- (1 / 2) + 1) with (1 / 2) by field. apply euler_is_gamma; [lra|exact H].
Qed.
Theorem C75_incomplete_total : forall a x : R,
  (0 < a -> 0 < x -> exists v N, forall k, (N <= k)%nat -> sgamma_lr k a x = Ret (Some v)) /\
  (x <= 0 -> forall k, sgamma_lr k a x = Panic).
Proof. intros a x. split; [apply sgamma_lr_limit|intros H k; now apply sgamma_lr_panic]. Qed.
Print Assumptions C75_incomplete_total.
(** P + Q = 1 and gamma + Gamma(a, x) = Gamma(a). *)
Theorem C75_complement : forall k (a x v w : R),
  (sgamma_lr k a x = Ret (Some v) -> sgamma_ur k a x = Ret (Some w) -> v + w = 1) /\
  (sgamma_l k a x = Ret (Some v) -> sgamma_u k a x = Ret (Some w) -> sgamma a = Ret (v + w)).
Proof.
  intros k a x v w. split; [apply sgamma_lr_ur|]. intros Ev Ew. destruct (sgamma a) as [g|] eqn:E.
  - f_equal. symmetry. exact (sgamma_lu k a x v w g Ev Ew E).
  - exfalso. unfold sgamma_l in Ev. rewrite E in Ev. destruct (sgamma_lr k a x) as [[u|]|]; discriminate Ev.
Qed.
Print Assumptions C75_complement.
Theorem C75_upper_bound : forall k (a x v : R), 0 < a -> 1 < x -> a < x -> sgamma_lr k a x = Ret (Some v) -> v <= 1.
Proof. exact sgamma_lr_lt1. Qed.
Print Assumptions C75_upper_bound.
(** The regularised lower incomplete gamma function is P(a,x): relative error 1.1e-15 max(1,x) where x <= 1
    or x <= a, and relative to 1 - P(a,x) an error of 1.3e-13 elsewhere, apart from an underflow term. *)
Theorem C75_lower_accuracy : forall k (a x v : R) P, 0 < a -> 0 < x -> x <= 1 \/ x <= a -> is_gamma_lr a P ->
  sgamma_lr k a x = Ret (Some v) -> 0 <= v /\ Rabs (v - P x) <= 11 / 10000000000000000 * Rmax 1 x * v + (1 + 3 / Rmax a x) / 10 ^ 308.
Proof. exact sgamma_lr_lower. Qed.
Print Assumptions C75_lower_accuracy.
Theorem C75_upper_accuracy : forall k (a x v : R) P, 0 < a -> 1 < x -> a < x -> is_gamma_lr a P ->
  sgamma_lr k a x = Ret (Some v) -> v <= 1 /\ Rabs (v - P x) <= 13 / 100000000000000 * (1 - v) + (1 + 3 / x) / 10 ^ 308.
Proof. exact sgamma_lr_upper. Qed.
Print Assumptions C75_upper_accuracy.
(** One absolute bound for both cases. *)
Theorem C75_incomplete_accuracy : forall k (a x v : R) P, 0 < a -> 0 < x -> is_gamma_lr a P -> sgamma_lr k a x = Ret (Some v) ->
  Rabs (v - P x) <= 13 / 100000000000000 * Rmax 0 (1 - v) + 11 / 10000000000000000 * Rmax 1 (Rmin a x) * Rmax 0 v + (1 + 3 / Rmax a x) / 10 ^ 308.
Proof. exact sgamma_lr_abs. Qed.
Print Assumptions C75_incomplete_accuracy.
Theorem C75_power_series : forall (a x : R) g F, 0 < a -> 0 < x -> x <= 1 \/ x <= a -> euler_gamma a g -> is_gamma_lr a F ->
  exists S, is_series (lower_gamma_term a x) S /\ F x = Rpower x a * exp (- x) / (a * g) * S.
Proof.
  intros a x g F Ha Hx Hxa Hg [g' HF]. rewrite <- (euler_gamma_unique _ _ _ (glr_gamma _ _ _ HF) Hg).
  destruct (lgt_tail a x 1 Ha Hx (le_n 1) Hxa) as (S & HS & _). exists S. split; [exact HS|].
  rewrite (glr_series a g' F x Ha Hx HF). now rewrite (lgt_pseries a x S HS).
Qed.
Print Assumptions C75_power_series.
(** The inverse of the regularised upper function runs at most 20 corrections.  Each replaces x by Newton's
    step x - u for the equation "lower function = p", or by Schroeder's x - u - d'/(2d) u^2 close to the
    solution; d is the density, u the residual divided by d. *)
Theorem C75_inverse_steps : forall fuel n a p q x g v w d1, 0 < a -> 0 < x -> sgamma a = Ret g ->
  sgamma_lr fuel a x = Ret (Some v) -> sgamma_ur fuel a x = Ret (Some w) ->
  let dens := fun y => Rpower y (a - 1) * exp (- y) / g in
  is_derive dens x d1 ->
  let u := (if Rle_dec p (1 / 2) then v - p else q - w) / dens x in
  exists y, (ur_iter fuel (S n) a p q x = Ret (Some y) \/ ur_iter fuel (S n) a p q x = ur_iter fuel n a p q y) /\
  (Rabs (u / x) <= 1 / 10 -> Rabs (u * (d1 / dens x)) <= 1 / 5 -> y = x - u - d1 / (2 * dens x) * (u * u)) /\
  (1 / 10 < Rabs (u / x) \/ 1 / 5 < Rabs (u * (d1 / dens x)) -> y = x - u).
Proof. exact ur_iter_newton. Qed.
Print Assumptions C75_inverse_steps.
Theorem C75_inverse : forall fuel (a q : R),
  (sgamma_ur_inv fuel 1 q = Ret (Some (- ln q))) /\
  (forall x, a <> 1 -> ur_start a q = Ret x -> sgamma_ur_inv fuel a q = ur_iter fuel 20 a (1 - q) q x).
Proof. exact ur_inv_eq. Qed.
Print Assumptions C75_inverse.
Example C75_example : sin (PI * (1 / 4)) <> 0 /\ (1 / 4 : R) <> 1 / 2 /\ euler_gamma 1 1 /\ is_gamma_lr 1 (fun y => 1 - exp (- y)) /\
  exists k v, sgamma_lr k 1 (1 / 2) = Ret (Some v).
Proof.
  split; [apply Rgt_not_eq, sin_PI_pos; lra|]. split; [lra|]. split; [exact (glr_gamma _ _ _ glr_1)|]. split; [exact (glr_is _ _ _ glr_1)|].
  destruct (sgamma_lr_limit 1 (1 / 2) ltac:(lra) ltac:(lra)) as (v & N & H). exists N, v. apply H. lia.
Qed.

(** * C76: beta functions *)
Theorem C76_beta : forall a b : R, 0 < a -> 0 < b -> exists v, sbeta a b = Ret v /\ sbeta b a = Ret v /\ 0 < v.
Proof.
  intros a b Ha Hb. destruct (sbeta_pos a b Ha Hb) as (v & E & P). exists v. repeat split; auto. now rewrite <- sbeta_sym.
Qed.
Print Assumptions C76_beta.
(** The beta integral converges, is Gamma(a)Gamma(b)/Gamma(a+b), and the crate's beta function is that number up
    to a relative error of 1.7e-11. *)
Theorem C76_beta_identity : forall a b : R, 0 < a -> 0 < b -> exists B ga gb gs,
  euler_beta a b B /\ euler_gamma a ga /\ euler_gamma b gb /\ euler_gamma (a + b) gs /\ B = ga * gb / gs.
Proof.
  intros a b Ha Hb. destruct (beta_exists a b Ha Hb) as [B HB]. destruct (gamma_exists a Ha) as [ga Hga]. destruct (gamma_exists b Hb) as [gb Hgb].
  destruct (gamma_exists (a + b) ltac:(lra)) as [gs Hgs]. exists B, ga, gb, gs. repeat (split; [assumption|]). now apply (beta_gamma a b).
Qed.
Print Assumptions C76_beta_identity.
Theorem C76_beta_accuracy : forall a b B : R, 0 < a -> 0 < b -> euler_beta a b B ->
  exists v, sbeta a b = Ret v /\ 0 < v /\ Rabs (v - B) <= 17 / 1000000000000 * B.
Proof. intros a b B Ha Hb HB. destruct (sbeta_accuracy a b B Ha Hb HB) as (v & E & P & A & _). now exists v. Qed.
Print Assumptions C76_beta_accuracy.
(** I_x(a,b) = 1 - I_{1-x}(b,a). *)
Theorem C76_reflection : forall k (x a b v : R), 0 < a -> 0 < b -> 0 < x < 1 -> a <> (a + b) * x ->
  sbeta_inc_reg k x a b = Ret (Some v) -> sbeta_inc_reg k (1 - x) b a = Ret (Some (1 - v)).
Proof. exact sbeta_inc_reg_reflect. Qed.
Print Assumptions C76_reflection.
Theorem C76_domain : forall k (x a b : R),
  (a <= 0 \/ b <= 0 \/ x < 0 \/ 1 < x -> sbeta_inc_reg k x a b = Panic) /\
  (0 < a -> 0 < b -> sbeta_inc_reg k 0 a b = Ret (Some 0) /\ sbeta_inc_reg k 1 a b = Ret (Some 1)).
Proof. intros k x a b. split; [apply sbeta_inc_reg_panic|apply sbeta_inc_reg_ends]. Qed.
Print Assumptions C76_domain.
(** The incomplete function terminates and approximates the integral of t^(a-1) (1-t)^(b-1) divided by the
    crate's own beta function: from 0 to x when x is at most the mean a/(a+b) ... *)
Theorem C76_incomplete_low : forall a b x : R, 0 < a -> 0 < b -> 0 < x < 1 -> x * (a + b) <= a -> a + b <= 1073741823 ->
  exists bt k v, sbeta a b = Ret bt /\ 0 < bt /\ 0 <= v /\ (forall fuel, (k <= fuel)%nat -> sbeta_inc_reg fuel x a b = Ret (Some v)) /\
  forall F, incomplete_beta a b F -> Rabs (v - F x / bt) <= 1 / 1000000000000000 * Rmax (x / (1 - x)) (b - 1) * v.
Proof. intros a b x Ha Hb Hx H Hab. apply sbeta_inc_reg_low; auto. lra. Qed.
Print Assumptions C76_incomplete_low.
(** ... and, for larger x, one minus the result approximates the integral from x to 1. *)
Theorem C76_incomplete_high : forall a b x : R, 0 < a -> 0 < b -> 0 < x < 1 -> a < x * (a + b) -> a + b <= 1073741823 ->
  exists bt k v, sbeta a b = Ret bt /\ 0 < bt /\ v <= 1 /\ (forall fuel, (k <= fuel)%nat -> sbeta_inc_reg fuel x a b = Ret (Some v)) /\
  forall F, incomplete_beta b a F -> Rabs ((1 - v) - F (1 - x) / bt) <= 1 / 1000000000000000 * Rmax ((1 - x) / x) (a - 1) * (1 - v).
Proof. intros a b x Ha Hb Hx H Hab. apply sbeta_inc_reg_high; auto. lra. Qed.
Print Assumptions C76_incomplete_high.
(** The unregularised function is the integral itself. *)
Theorem C76_unregularised_low : forall a b x : R, 0 < a -> 0 < b -> 0 < x < 1 -> x * (a + b) <= a -> a + b <= 1073741823 ->
  exists k v, 0 <= v /\ (forall fuel, (k <= fuel)%nat -> sbeta_inc fuel x a b = Ret (Some v)) /\
  forall F, incomplete_beta a b F -> Rabs (v - F x) <= 1 / 1000000000000000 * Rmax (x / (1 - x)) (b - 1) * v.
Proof. exact sbeta_inc_low. Qed.
Print Assumptions C76_unregularised_low.
Theorem C76_unregularised_high : forall a b x : R, 0 < a -> 0 < b -> 0 < x < 1 -> a < x * (a + b) -> a + b <= 1073741823 ->
  exists bt k v, sbeta a b = Ret bt /\ v <= bt /\ (forall fuel, (k <= fuel)%nat -> sbeta_inc fuel x a b = Ret (Some v)) /\
  forall F, incomplete_beta b a F -> Rabs ((bt - v) - F (1 - x)) <= 1 / 1000000000000000 * Rmax ((1 - x) / x) (a - 1) * (bt - v).
Proof. exact sbeta_inc_high. Qed.
Print Assumptions C76_unregularised_high.
(** Against the true regularised function I_x(a,b) = (integral of t^(a-1) (1-t)^(b-1) from 0 to x) / B(a,b). *)
Theorem C76_regularised_accuracy : forall a b x B F, 0 < a -> 0 < b -> 0 < x < 1 -> a + b <= 1073741823 -> euler_beta a b B -> incomplete_beta a b F ->
  exists k v, (forall fuel, (k <= fuel)%nat -> sbeta_inc_reg fuel x a b = Ret (Some v)) /\
  (x * (a + b) <= a -> 0 <= v /\ Rabs (v - F x / B) <= 1 / 1000000000000000 * Rmax (x / (1 - x)) (b - 1) * v + 17 / 1000000000000 * (F x / B)) /\
  (a < x * (a + b) -> v <= 1 /\ Rabs (v - F x / B) <= 1 / 1000000000000000 * Rmax ((1 - x) / x) (a - 1) * (1 - v) + 17 / 1000000000000 * (1 - F x / B)).
Proof.
  intros a b x B F Ha Hb Hx Hab HB HF. destruct (Rle_lt_dec (x * (a + b)) a) as [L|L].
  - destruct (inc_reg_low a b x B F Ha Hb Hx L Hab HB HF) as (k & v & K & A). exists k, v. split; [exact K|]. split; [intro; exact A|intro; lra].
  - destruct (inc_reg_high a b x B F Ha Hb Hx L Hab HB HF) as (k & v & K & A). exists k, v. split; [exact K|]. split; [intro; lra|intro; exact A].
Qed.
Print Assumptions C76_regularised_accuracy.
(** The integral exists and is unique. *)
Theorem C76_integral_exists : forall a b : R, 0 < a -> exists F, incomplete_beta a b F /\
  forall G, incomplete_beta a b G -> forall x, 0 < x < 1 -> G x = F x.
Proof.
  intros a b Ha. destruct (inc_beta_exists a b Ha) as [F HF]. exists F. split; [exact HF|]. intros G HG x Hx. exact (inc_beta_unique a b G F HG HF x Hx).
Qed.
Print Assumptions C76_integral_exists.
Example C76_accuracy_example : exists B F, euler_beta 2 3 B /\ incomplete_beta 2 3 F /\ 2 + 3 <= 1073741823.
Proof. destruct (beta_exists 2 3) as [B HB]; [lra|lra|]. destruct (inc_beta_exists 2 3) as [F HF]; [lra|]. exists B, F. split; [exact HB|]. split; [exact HF|lra]. Qed.
Example C76_example : (0 < 2 /\ 0 < 3 /\ 0 < 1 / 4 < 1 /\ 2 <> (2 + 3) * (1 / 4))%R.
Proof. lra. Qed.

(** * C77: the hypergeometric function *)
Theorem C77_total : forall a b c z : R, 0 < a -> 0 < b -> 0 < c -> 0 <= z <= 1 / 2 -> exists k v, sf21 k a b c z = Ret (Some v) /\ 1 <= v.
Proof.
  intros a b c z Ha Hb Hc Hz. destruct (f21_norm_total a b c z Ha Hb Hc Hz) as (k & v & E & H). exists k, v.
  rewrite sf21_small by assumption. now rewrite E.
Qed.
Print Assumptions C77_total.
(** What is returned for 0 <= z <= 1/2 is a partial sum of Gauss's series ... *)
Theorem C77_partial_sum : forall k (a b c z v : R), 0 < a -> 0 < b -> 0 < c -> 0 <= z <= 1 / 2 -> sf21 k a b c z = Ret (Some v) ->
  exists N, v = sum_f_R0 (gauss_term a b c z) N.
Proof.
  intros k a b c z v Ha Hb Hc Hz E. rewrite sf21_small in E by assumption.
  apply Ret_inj in E. destruct (f21_norm_partial a b c z k v Hc E) as (N & H & _). now exists N.
Qed.
Print Assumptions C77_partial_sum.
(** ... with relative error at most 2e-16 when a <= 1 and b <= c ... *)
Theorem C77_accuracy : forall k (a b c z v : R), 0 < a <= 1 -> 0 < b <= c -> 0 <= z <= 1 / 2 -> sf21 k a b c z = Ret (Some v) ->
  exists F, is_series (gauss_term a b c z) F /\ v <= F <= v * (1 + 2 / 10000000000000000).
Proof.
  intros k a b c z v Ha Hb Hz E. rewrite sf21_small in E by lra. apply Ret_inj in E. now apply (f21_norm_accuracy a b c z k v).
Qed.
Print Assumptions C77_accuracy.
(** ... but in general the loop can stop at a negligible term although the next one is large. *)
Theorem C77_early_stop_refuted : exists a b c z v : R, 0 < a /\ 0 < b /\ 0 < c /\ 0 <= z <= 1 / 2 /\
  sf21 1 a b c z = Ret (Some v) /\ v < 2 /\ 1000 < gauss_term a b c z 2.
Proof.
  destruct f21_early as (a & b & c & z & v & Ha & Hb & Hc & Hz & E & H). exists a, b, c, z, v. rewrite sf21_small by assumption. rewrite E. tauto.
Qed.
Print Assumptions C77_early_stop_refuted.
Theorem C77_symmetric : forall k (a b c z : R), 0 < a -> 0 < b -> 0 < c -> 0 <= z <= 1 / 2 -> sf21 k a b c z = sf21 k b a c z.
Proof. exact sf21_small_sym. Qed.
Print Assumptions C77_symmetric.
Theorem C77_values : (forall k (a b c : R), 0 < a -> 0 < b -> 0 < c -> sf21 (S k) a b c 0 = Ret (Some 1)) /\
  (forall k (a b c : R), 0 < a -> 0 < b -> 0 < c -> a + b < c -> exists v, sf21 k a b c 1 = Ret (Some v) /\ 0 < v /\ sf21 k b a c 1 = Ret (Some v)) /\
  (forall k (a b c z : R), a <= 0 \/ b <= 0 \/ c <= 0 \/ 1 < z -> sf21 k a b c z = Panic).
Proof.
  split; [|split; [exact sf21_one|exact sf21_panic]]. intros k a b c Ha Hb Hc. rewrite sf21_small by lra. now rewrite f21_zero.
Qed.
Print Assumptions C77_values.
(** At z = 1 with a + b > c a finite value is returned although the series diverges. *)
Theorem C77_divergent_refuted : forall k, (exists v : R, sf21 k 2 1 1 1 = Ret (Some v)) /\ ~ ex_series (gauss_term 2 1 1 1).
Proof. exact f21_divergent. Qed.
Print Assumptions C77_divergent_refuted.
(** Pfaff's transformation, used for -1 <= z < 0: in the case F(1/2, k; 3/2; z) the function terminates and is
    Euler's integral up to a relative error of 3e-16. *)
Theorem C77_negative_accuracy : forall k z : R, 1 / 2 < k -> -1 <= z < 0 -> (2 * k - 3) * - z < 6 * (1 - z) ->
  exists m v, (forall fuel, (m <= fuel)%nat -> sf21 fuel (1 / 2) k (3 / 2) z = Ret (Some v)) /\
  Rabs (v - f21_half k z) <= 3 / 10000000000000000 * f21_half k z.
Proof. exact f21_half_acc. Qed.
Print Assumptions C77_negative_accuracy.
(** At z = 1 with a + b < c the series converges (Gauss) and the value returned is its sum. *)
Theorem C77_at_one : forall (a b c : R), 0 < a -> 0 < b -> a + b < c ->
  exists F, is_series (gauss_term a b c 1) F /\
  forall k, exists v, sf21 k a b c 1 = Ret (Some v) /\ Rabs (v - F) <= 21 / 1000000000000 * F.
Proof.
  intros a b c Ha Hb Hc. destruct (beta_exists (c - a - b) a) as [B1 H1]; [lra|exact Ha|]. destruct (beta_exists (c - a) a) as [B2 H2]; [lra|exact Ha|].
  exists (B1 / B2). pose proof (gauss_sum a b c B1 B2 Ha Hb Hc H1 H2) as G. split; [exact G|]. intro k. now apply sf21_one_acc.
Qed.
Print Assumptions C77_at_one.
Example C77_at_one_example : 0 < 1 / 2 /\ 0 < 1 / 3 /\ 1 / 2 + 1 / 3 < 1.
Proof. lra. Qed.
Example C77_negative_example : 1 / 2 < 7 /\ -1 <= -1 / 2 < 0 /\ (2 * 7 - 3) * - (-1 / 2) < 6 * (1 - -1 / 2).
Proof. lra. Qed.
Example C77_example : exists k v, sf21 k (1 / 2) 1 (3 / 2) (1 / 4) = Ret (Some v) /\ (0 < 1 / 2 <= 1 /\ 0 < 1 <= 3 / 2)%R.
Proof.
  destruct (C77_total (1 / 2) 1 (3 / 2) (1 / 4)) as (k & v & E & _); try lra. exists k, v. split; [exact E|lra].
Qed.
