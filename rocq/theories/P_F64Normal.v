(** C118: the densities of the normal, log-normal and raised cosine distributions in binary64. *)
From Coq Require Import Arith Lia List Bool ZArith Reals Lra SpecFloat.
From Flocq Require Import Core.
From Verif Require Import Outcome Scalar RealOps Elem_model Int_model Ode_model Stat_model Stat_spec F64_spec F64Cplx_spec F64Gamma_spec F64Density_spec F64Normal_spec F64Normal_proofs.
Local Open Scope R_scope.

(** Normal distribution with variance 1, within 36 standard deviations: the relative error of pdf against the Gaussian density. *)
Theorem C118_standard_pdf : forall (pw : f64 -> f64 -> f64) (E : EOps f64) a, 0 <= a <= 1000 -> libm_acc a pw E -> pow_square a pw ->
  forall (mu x : f64) d, normal_new mu one = Ret d -> fgood mu -> fgood x -> Rabs (fval x - fval mu) <= 36 ->
  let D := fval x - fval mu in
  fgood (@normal_pdf f64 _ (F64_pops pw) E d x) /\
  Rabs (fval (@normal_pdf f64 _ (F64_pops pw) E d x) - gauss (fval mu) 1 (fval x)) <= (3 * a + 5 + (2 * a + 6) * (D * D / 2)) * uro * gauss (fval mu) 1 (fval x).
Proof. exact standard_pdf_f64. Qed.
Print Assumptions C118_standard_pdf.
(** Any variance v: the same bound, with the deviation divided by v, against the function that the code evaluates. *)
Theorem C118_normal_pdf : forall (pw : f64 -> f64 -> f64) (E : EOps f64) a, 0 <= a <= 1000 -> libm_acc a pw E -> pow_square a pw ->
  forall (mu v x : f64) d, normal_new mu v = Ret d -> fgood mu -> fgood v -> fgood x -> bpow radix2 (-500) <= fval v <= bpow radix2 500 ->
  let D := (fval x - fval mu) / fval v in Rabs D <= 37 -> safe (coded_gauss (fval mu) (fval v) (fval x)) ->
  fgood (@normal_pdf f64 _ (F64_pops pw) E d x) /\
  Rabs (fval (@normal_pdf f64 _ (F64_pops pw) E d x) - coded_gauss (fval mu) (fval v) (fval x)) <= (3 * a + 5 + (2 * a + 6) * (D * D / 2)) * uro * coded_gauss (fval mu) (fval v) (fval x).
Proof.
  intros pw E a Ha HL HS mu v x d Hd. unfold normal_new in Hd. destruct (leb v zero); [discriminate|]. injection Hd as <-. exact (normal_pdf_f64 pw E a Ha HL HS mu v x).
Qed.
Print Assumptions C118_normal_pdf.
(** That function is not the density unless the variance is 1: with variance 4, the value returned at two standard deviations is more than
    three times the density there. *)
Theorem C118_normal_pdf_refuted : forall (pw : f64 -> f64 -> f64) (E : EOps f64) a, 0 <= a <= 1000 -> libm_acc a pw E -> pow_square a pw ->
  exists (mu v x : f64) d, fval mu = 0 /\ fval v = 4 /\ fval x = 4 /\ normal_new mu v = Ret d /\ fgood (@normal_pdf f64 _ (F64_pops pw) E d x) /\
    3 * gauss 0 4 4 <= fval (@normal_pdf f64 _ (F64_pops pw) E d x).
Proof. exact normal_pdf_wrong. Qed.
Print Assumptions C118_normal_pdf_refuted.
(** Log-normal distribution: the relative error of pdf is governed by the exponent Q and by the condition of the logarithm. *)
Theorem C118_log_normal_pdf : forall (pw : f64 -> f64 -> f64) (E : EOps f64) a, 0 <= a <= 1000 -> libm_acc a pw E -> pow_square a pw -> ln_acc a (@tln f64 E) ->
  forall (mu s2 x : f64) d, log_normal_new mu s2 = Ret d -> fgood mu -> fgood s2 -> fgood x -> / 1024 <= fval s2 <= bpow radix2 500 -> bpow radix2 (-400) <= fval x <= bpow radix2 400 ->
  let D := ln (fval x) - fval mu in let Q := D * D / 2 / fval s2 in Q <= 690 -> safe (log_gauss (fval mu) (fval s2) (fval x)) ->
  fgood (@log_normal_pdf f64 _ (F64_pops pw) E d x) /\
  Rabs (fval (@log_normal_pdf f64 _ (F64_pops pw) E d x) - log_gauss (fval mu) (fval s2) (fval x))
    <= (3 * a + 8 + (2 * a + 5) * Q + 2 * a * (Rabs (ln (fval x)) * Rabs D / fval s2)) * uro * log_gauss (fval mu) (fval s2) (fval x).
Proof.
  intros pw E a Ha HL HS HN mu s2 x d Hd. unfold log_normal_new in Hd. destruct (leb s2 zero); [discriminate|]. injection Hd as <-. exact (log_normal_pdf_f64 pw E a Ha HL HS mu s2 x HN).
Qed.
Print Assumptions C118_log_normal_pdf.
(** Raised cosine distribution, inside its support up to the rounding of its two ends: an absolute error of a few units roundoff of 1/(2s). *)
Theorem C118_raised_pdf : forall (pw : f64 -> f64 -> f64) (E : EOps f64) a, 0 <= a <= 1000 -> libm_acc a pw E -> trig_acc a (@tcos f64 E) cos ->
  forall (mu s x : f64) d, raised_new mu s = Ret d -> fgood mu -> fgood s -> fgood x -> Rabs (fval mu) <= bpow radix2 900 -> bpow radix2 (-500) <= fval s <= bpow radix2 500 ->
  Rabs (fval x - fval mu) <= fval s - 2 * uro * (Rabs (fval mu) + fval s) ->
  fgood (@raised_pdf f64 _ E d x) /\ Rabs (fval (@raised_pdf f64 _ E d x) - raised_density (fval mu) (fval s) (fval x)) <= (a + 25) * uro * / (2 * fval s).
Proof.
  intros pw E a Ha HL HC mu s x d Hd. unfold raised_new in Hd. destruct (ltb s zero); [discriminate|]. injection Hd as <-. exact (raised_pdf_f64 pw E a Ha HL mu s x HC).
Qed.
Print Assumptions C118_raised_pdf.
(** ... and exactly 0 outside it. *)
Theorem C118_raised_out : forall (E : EOps f64) (mu s x : f64) d, raised_new mu s = Ret d -> fgood mu -> fgood s -> fgood x -> Rabs (fval mu) <= bpow radix2 900 -> 0 < fval s <= bpow radix2 900 ->
  fval s + 2 * uro * (Rabs (fval mu) + fval s) <= Rabs (fval x - fval mu) -> @raised_pdf f64 _ E d x = S754_zero false.
Proof.
  intros E mu s x d Hd. unfold raised_new in Hd. destruct (ltb s zero); [discriminate|]. injection Hd as <-. exact (raised_pdf_out E mu s x).
Qed.
Print Assumptions C118_raised_out.
(** Functions and arguments that meet the hypotheses: correctly rounded elementary functions; mean 0 and variance 1, at 0; the log-normal distribution
    with parameters 0 and 1, at 1; the raised cosine distribution with mean 0 and half width 1, at 1/2 and at 4. *)
Example C118_example :
  (libm_acc 2 square_pow F64Libm_proofs.exact_eops /\ pow_square 2 square_pow /\ ln_acc 2 (@tln f64 F64Libm_proofs.exact_eops) /\ trig_acc 2 (@tcos f64 F64Libm_proofs.exact_eops) cos) /\
  (normal_new (T := f64) zero one = Ret (mkNormal zero one) /\ safe (coded_gauss 0 1 0)) /\
  (log_normal_new (T := f64) zero one = Ret (mkLogNormal zero one) /\ (ln 1 - 0) * (ln 1 - 0) / 2 / 1 <= 690 /\ safe (log_gauss 0 1 1)) /\
  (raised_new (T := f64) zero one = Ret (mkRaised zero one) /\ Rabs (/ 2 - 0) <= 1 - 2 * uro * (Rabs 0 + 1) /\ 1 + 2 * uro * (Rabs 0 + 1) <= Rabs (4 - 0)).
Proof. exact normal_examples. Qed.
