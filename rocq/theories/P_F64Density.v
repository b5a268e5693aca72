(** C116: the densities of the gamma, chi-square, beta and t distributions in binary64. *)
From Coq Require Import Arith Lia List Bool ZArith Reals Lra SpecFloat.
From Flocq Require Import Core.
From Verif Require Import Outcome Scalar RealOps Elem_model Int_model Ode_model Special_model Special_spec Stat_model Stat_spec F64_spec F64Cplx_spec F64Gamma_spec F64Density_spec
  F64GammaEx_proofs F64Density_proofs F64DensityEx_proofs.
Local Open Scope R_scope.

(** Gamma distribution with shape al <= 141 and rate be: while the intermediate quantities are far from underflow and overflow, the
    relative error of pdf is that of the gamma function, plus the condition of the power, |al - 1| |ln x|, and of the exponential, be x. *)
Theorem C116_gamma_pdf : forall (pw : f64 -> f64 -> f64) (E : EOps f64) a, 0 <= a <= 1000 -> libm_acc a pw E ->
  forall fuel (al be x : f64) g, fgood al -> fgood be -> fgood x -> bpow radix2 (-600) <= fval al <= 141 -> 0 < fval be -> 0 < fval x -> fval be * fval x <= 699 ->
  is_gamma (fval al) g -> safe (Rpower (fval be) (fval al)) -> safe (Rpower (fval be) (fval al) / g) -> safe (Rpower (fval x) (fval al - 1)) ->
  safe (Rpower (fval be) (fval al) / g * Rpower (fval x) (fval al - 1)) -> safe (gamma_density (fval al) (fval be) g (fval x)) ->
  exists v, @gammad_pdf f64 _ (F64_pops pw) E (@impl_special f64 _ (F64_pops pw) E _ fuel) (mkGammaD al be) x = Ret v /\ fgood v /\
  Rabs (fval v - gamma_density (fval al) (fval be) g (fval x))
    <= (36 / 10000000000000 + (9 * a + 5010 + 2 * Rabs (fval al - 1) * Rabs (ln (fval x)) + 2 * (fval be * fval x)) * uro) * gamma_density (fval al) (fval be) g (fval x).
Proof. exact gamma_pdf_f64. Qed.
Print Assumptions C116_gamma_pdf.
(** The bound on the shape is needed: for shape 150 and rate 1 the computed density at 100 is 0, the exact one is more than 2^-40. *)
Theorem C116_gamma_pdf_refuted : forall (pw : f64 -> f64 -> f64) (E : EOps f64) a, 0 <= a <= 1000 -> libm_acc a pw E -> pow_overflow pw ->
  forall fuel g, is_gamma 150 g -> bpow radix2 (-40) <= gamma_density 150 1 g 100 /\
  exists al be x : f64, fgood al /\ fgood be /\ fgood x /\ fval al = 150 /\ fval be = 1 /\ fval x = 100 /\
    @gammad_pdf f64 _ (F64_pops pw) E (@impl_special f64 _ (F64_pops pw) E _ fuel) (mkGammaD al be) x = Ret (S754_zero false).
Proof.
  intros pw E a Ha HL HO fuel g Hg. split; [now apply gamma_density_150|]. exists (lit 150 1), one, (lit 100 1). pose proof num150. pose proof num100. pose proof F64Gamma_proofs.num1.
  repeat (split; [tauto|]). exact (gamma_pdf_150 pw E a Ha HL HO fuel).
Qed.
Print Assumptions C116_gamma_pdf_refuted.
(** Chi-square distribution with k <= 282 degrees of freedom. *)
Theorem C116_chi_pdf : forall (pw : f64 -> f64 -> f64) (E : EOps f64) a, 0 <= a <= 1000 -> libm_acc a pw E ->
  forall fuel k (x : f64) g d, (k <= 282)%nat -> chi_new (T := f64) k = Ret d -> fgood x -> 0 < fval x <= 1398 -> is_gamma (INR k / 2) g ->
  safe (Rpower 2 (INR k / 2) * g) -> safe (/ (Rpower 2 (INR k / 2) * g)) -> safe (Rpower (fval x) (INR k / 2 - 1)) ->
  safe (Rpower (fval x) (INR k / 2 - 1) * exp (- (fval x / 2))) -> safe (chi_density (INR k) g (fval x)) ->
  exists v, @chi_pdf f64 _ (F64_pops pw) E (@impl_special f64 _ (F64_pops pw) E _ fuel) d x = Ret v /\ fgood v /\
  Rabs (fval v - chi_density (INR k) g (fval x)) <= (36 / 10000000000000 + (9 * a + 5020 + INR k + 2 * INR k * Rabs (ln (fval x)) + fval x) * uro) * chi_density (INR k) g (fval x).
Proof. exact chi_pdf_f64. Qed.
Print Assumptions C116_chi_pdf.
(** Beta distribution, inside (0,1). *)
Theorem C116_beta_pdf : forall (pw : f64 -> f64 -> f64) (E : EOps f64) a, 0 <= a <= 1000 -> libm_acc a pw E ->
  forall fuel (p q x : f64) B ga gb, fgood p -> fgood q -> fgood x -> bpow radix2 (-600) <= fval p -> bpow radix2 (-600) <= fval q -> fval p + fval q <= 141 -> 0 < fval x < 1 ->
  euler_beta (fval p) (fval q) B -> is_gamma (fval p) ga -> is_gamma (fval q) gb -> safe (ga * gb) -> safe B ->
  safe (Rpower (fval x) (fval p - 1)) -> safe (Rpower (1 - fval x) (fval q - 1)) -> safe (Rpower (fval x) (fval p - 1) * Rpower (1 - fval x) (fval q - 1)) -> safe (beta_density (fval p) (fval q) B (fval x)) ->
  exists v, @beta_pdf f64 _ (F64_pops pw) (@impl_special f64 _ (F64_pops pw) E _ fuel) (mkBeta p q) x = Ret v /\ fgood v /\
  Rabs (fval v - beta_density (fval p) (fval q) B (fval x))
    <= (105 / 10000000000000 + (18 * a + 15010 + 2 * Rabs (fval p - 1) * Rabs (ln (fval x)) + 2 * Rabs (fval q - 1) * (Rabs (ln (1 - fval x)) + 1)) * uro) * beta_density (fval p) (fval q) B (fval x).
Proof. exact beta_pdf_f64. Qed.
Print Assumptions C116_beta_pdf.
(** Student's t distribution with 2^-10 <= n <= 280 degrees of freedom, on the whole line. *)
Theorem C116_t_pdf : forall (pw : f64 -> f64 -> f64) (E : EOps f64) a, 0 <= a <= 1000 -> libm_acc a pw E ->
  forall fuel (n x : f64) g1 g2, fgood n -> fgood x -> bpow radix2 (-10) <= fval n <= 280 -> fval x * fval x <= bpow radix2 1000 ->
  is_gamma ((fval n + 1) / 2) g1 -> is_gamma (fval n / 2) g2 -> safe (Rpower (1 + fval x * fval x / fval n) (- ((fval n + 1) / 2))) ->
  safe (g1 * Rpower (1 + fval x * fval x / fval n) (- ((fval n + 1) / 2))) -> safe (sqrt (fval n * PI) * g2) -> safe (t_density (fval n) g1 g2 (fval x)) ->
  exists v, @td_pdf f64 _ (F64_pops pw) E (@impl_special f64 _ (F64_pops pw) E _ fuel) (mkT n) x = Ret v /\ fgood v /\
  Rabs (fval v - t_density (fval n) g1 g2 (fval x))
    <= (70 / 10000000000000 + (13 * a + 10010 + 2 * (fval n + 1) * (ln (1 + fval x * fval x / fval n) + 1)) * uro) * t_density (fval n) g1 g2 (fval x).
Proof. exact t_pdf_f64. Qed.
Print Assumptions C116_t_pdf.
(** Arguments that meet the hypotheses (with correctly rounded elementary functions, C115_example): the exponential distribution (shape 1)
    at 1, two degrees of freedom at 1, the uniform distribution (p = q = 1) at 1/2 and Cauchy's distribution (n = 1) at 0. *)
Example C116_example :
  (is_gamma 1 1 /\ safe (Rpower 1 1) /\ safe (Rpower 1 1 / 1) /\ safe (Rpower 1 (1 - 1)) /\ safe (Rpower 1 1 / 1 * Rpower 1 (1 - 1)) /\ safe (gamma_density 1 1 1 1)) /\
  (is_gamma (INR 2 / 2) 1 /\ safe (Rpower 2 (INR 2 / 2) * 1) /\ safe (/ (Rpower 2 (INR 2 / 2) * 1)) /\ safe (Rpower 1 (INR 2 / 2 - 1)) /\
   safe (Rpower 1 (INR 2 / 2 - 1) * exp (- (1 / 2))) /\ safe (chi_density (INR 2) 1 1)) /\
  (euler_beta 1 1 1 /\ safe (1 * 1) /\ safe (Rpower (1 / 2) (1 - 1)) /\ safe (Rpower (1 - 1 / 2) (1 - 1)) /\ safe (Rpower (1 / 2) (1 - 1) * Rpower (1 - 1 / 2) (1 - 1)) /\ safe (beta_density 1 1 1 (1 / 2))) /\
  (is_gamma ((1 + 1) / 2) 1 /\ is_gamma (1 / 2) (sqrt PI) /\ safe (Rpower (1 + 0 * 0 / 1) (- ((1 + 1) / 2))) /\ safe (1 * Rpower (1 + 0 * 0 / 1) (- ((1 + 1) / 2))) /\
   safe (sqrt (1 * PI) * sqrt PI) /\ safe (t_density 1 1 (sqrt PI) 0)).
Proof.
  pose proof exp_le_3 as E3. pose proof (exp_ineq1_le (- (1))) as E1. pose proof (exp_ineq1_le (- (1 / 2))) as E2. pose proof F64GammaFun_proofs.PI_up as PU.
  assert (I1 : forall y, 1 <= y -> / y <= 1) by (intros y H; rewrite <- Rinv_1; apply Rinv_le_contravar; lra).
  assert (X1 : / 3 <= exp (- (1)) <= 1). { rewrite exp_Ropp. pose proof (exp_ineq1_le 1). split; [apply Rinv_le_contravar; [apply exp_pos|exact E3]|]. apply I1; lra. }
  assert (X2 : / 2 <= exp (- (1 / 2)) <= 1). { split; [lra|]. rewrite exp_Ropp. pose proof (exp_ineq1_le (1 / 2)). apply I1; lra. }
  assert (G1 : is_gamma 1 1) by (apply GammaAll_proofs.euler_is_gamma; [lra|exact Stirling_proofs.euler_gamma_1]).
  assert (I2 : INR 2 / 2 = 1) by (simpl; field). assert (I0 : 1 - 1 = 0) by ring. assert (P0 : forall x, 0 < x -> Rpower x 0 = 1) by (intros; now apply Rpower_O).
  assert (SP : sqrt PI * sqrt PI = PI) by (apply sqrt_sqrt; lra). assert (S0 : 0 < sqrt PI) by (apply sqrt_lt_R0; lra).
  unfold gamma_density, chi_density, beta_density, t_density. rewrite !I2, !I0, !Rpower_1_l, !P0, !Rpower_1 by lra.
  replace (1 + 0 * 0 / 1) with 1 by field. rewrite !Rpower_1_l, !Rmult_1_l, !Rmult_1_r, SP. replace ((1 + 1) / 2) with 1 by field.
  repeat match goal with |- _ /\ _ => split end; try exact G1; try (apply safe_box; lra).
  - destruct (BetaAcc_proofs.beta_exists 1 1 ltac:(lra) ltac:(lra)) as (b & Hb). replace 1 with b at 3; [exact Hb|].
    rewrite (BetaAcc_proofs.beta_gamma 1 1 b 1 1 1 ltac:(lra) ltac:(lra) Hb Stirling_proofs.euler_gamma_1 Stirling_proofs.euler_gamma_1); [field|].
    pose proof (GammaFun_proofs.euler_gamma_S 1 1 ltac:(lra) Stirling_proofs.euler_gamma_1) as G. now rewrite Rmult_1_l in G.
  - apply GammaAll_proofs.euler_is_gamma; [lra|]. exact Stirling_proofs.euler_gamma_half.
  - apply safe_box. split; [apply Rle_trans with (1 / 4); [lra|]|apply Rle_trans with 1; [|lra]]; apply Rmult_le_reg_r with PI; try lra; unfold Rdiv; rewrite ?Rmult_assoc, ?Rinv_l by lra; lra.
Qed.
