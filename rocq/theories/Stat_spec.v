(** Specifications for the statistics properties: textbook definitions, independent of the model. *)
From Coq Require Import Arith List ZArith Reals.
From Coquelicot Require Import Coquelicot.
Local Open Scope R_scope.

(** Binomial coefficients by Pascal's triangle. *)
Fixpoint choose (n k : nat) : nat :=
  match n, k with
  | _, O => 1%nat
  | O, S _ => 0%nat
  | S n', S k' => (choose n' k' + choose n' k)%nat
  end.

(** The sum f(0) + ... + f(n). *)
Fixpoint sum_to (n : nat) (f : nat -> R) : R :=
  match n with O => f O | S k => sum_to k f + f (S k) end.

(** Expectation, variance and distribution function of a law on {0..n} with point masses [pm]. *)
Definition expectation (n : nat) (pm : nat -> R) (g : nat -> R) : R := sum_to n (fun k => g k * pm k).
Definition d_mean (n : nat) (pm : nat -> R) : R := expectation n pm INR.
Definition d_variance (n : nat) (pm : nat -> R) : R :=
  expectation n pm (fun k => (INR k - d_mean n pm) * (INR k - d_mean n pm)).
Definition prob_le (n : nat) (pm : nat -> R) (x : R) : R :=
  sum_to n (fun k => if Rle_dec (INR k) x then pm k else 0).

(** The binomial law. *)
Definition binomial_law (n : nat) (p : R) (k : nat) : R :=
  INR (choose n k) * p ^ k * (1 - p) ^ (n - k).

(** The Poisson law. *)
Definition poisson_law (g : R) (k : nat) : R := g ^ k / INR (fact k) * exp (- g).

(** Gaussian density with mean [mu] and variance [v]. *)
Definition gauss (mu v x : R) : R := / sqrt (2 * PI * v) * exp (- ((x - mu) * (x - mu)) / (2 * v)).

(** [F] is a distribution function: nondecreasing, 0 and 1 are its limits. *)
Definition is_cdf (F : R -> R) : Prop :=
  (forall x y, x <= y -> F x <= F y) /\ is_lim F m_infty 0 /\ is_lim F p_infty 1.

(** [v] is the limit of the integrals of [f] over [a, b] for growing [b]. *)
Definition improper_integral (f : R -> R) (a v : R) : Prop :=
  (forall b, a <= b -> ex_RInt f a b) /\ is_lim (fun b => RInt f a b) p_infty v.

(** Arithmetic mean, sum of squared deviations over n-1, and its pairwise form. *)
Definition sumR (l : list R) : R := fold_right Rplus 0 l.
Definition avg (l : list R) : R := sumR l / INR (length l).
Definition sample_variance (l : list R) : R :=
  sumR (map (fun x => (x - avg l) * (x - avg l)) l) / (INR (length l) - 1).
Definition pair_variance (l : list R) : R :=
  sumR (map (fun x => sumR (map (fun y => (x - y) * (x - y)) l)) l)
  / (2 * INR (length l) * (INR (length l) - 1)).

(** The error function. *)
Definition erf_true (x : R) : R := 2 / sqrt PI * RInt (fun t => exp (- (t * t))) 0 x.

(** Integrals over the whole line and over the positive half-line, by an antiderivative with limits
    at both ends. *)
Definition integral_line (f : R -> R) (v : R) : Prop :=
  exists (F : R -> R) (l : R),
    (forall x, is_derive F x (f x)) /\ is_lim F m_infty l /\ is_lim F p_infty (l + v).
Definition integral_pos (f : R -> R) (v : R) : Prop :=
  exists F : R -> R,
    (forall x, 0 < x -> is_derive F x (f x)) /\ filterlim F (at_right 0) (locally 0) /\ is_lim F p_infty v.

(** Pearson's statistic of a 2 x m table: observed against expected counts, the expected ones from
    the margins; [X], [Y] are the totals of the two rows. *)
Definition pearson (x y : list R) : R :=
  let X := sumR x in let Y := sumR y in let n := X + Y in
  sumR (map (fun p => let '(a, b) := p in
    let ea := X * (a + b) / n in let eb := Y * (a + b) / n in
    (a - ea) * (a - ea) / ea + (b - eb) * (b - eb) / eb) (combine x y)).

(** The G statistic of observed counts [x] against the expected proportions [y]. *)
Definition g_stat (x y : list R) : R :=
  2 * sumR (map (fun p => let '(a, b) := p in a * ln (a / (b * sumR x / sumR y))) (combine x y)).

(** [y] is a constant multiple of [x]. *)
Definition proportional (x y : list R) : Prop :=
  exists c, y = map (Rmult c) x.

(** Euler's integrals.  [euler_gamma z g]: g is Gamma(z).  [euler_beta p q b]: b is B(p,q). *)
Definition euler_gamma (z g : R) : Prop := integral_pos (fun t => Rpower t (z - 1) * exp (- t)) g.
Definition integral_01 (f : R -> R) (v : R) : Prop :=
  exists F : R -> R,
    (forall x, 0 < x < 1 -> is_derive F x (f x)) /\ filterlim F (at_right 0) (locally 0) /\
    filterlim F (at_left 1) (locally v).
Definition euler_beta (p q b : R) : Prop :=
  integral_01 (fun t => Rpower t (p - 1) * Rpower (1 - t) (q - 1)) b.

(** [is_gamma_lr a F]: F is the regularised lower incomplete gamma function y -> P(a, y), y > 0. *)
Definition is_gamma_lr (a : R) (F : R -> R) : Prop :=
  exists g, 0 < g /\ (forall y, 0 < y -> is_derive F y (Rpower y (a - 1) * exp (- y) / g)) /\
    filterlim F (at_right 0) (locally 0) /\ is_lim F p_infty 1.

(** The Bernoulli law. *)
Definition bern_pm (p : R) (k : nat) : R := match k with O => 1 - p | _ => p end.

(** All entries are equal. *)
Definition constant (l : list R) : Prop := forall x y, In x l -> In y l -> x = y.

(** Welch's statistic and its degrees of freedom. *)
Definition welch_t (x y : list R) : R :=
  (avg x - avg y) / sqrt (sample_variance x / INR (length x) + sample_variance y / INR (length y)).
Definition welch_df (x y : list R) : R :=
  let a := sample_variance x / INR (length x) in
  let b := sample_variance y / INR (length y) in
  (a + b) * (a + b) / (a * a / (INR (length x) - 1) + b * b / (INR (length y) - 1)).
