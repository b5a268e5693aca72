(** Specification of the special functions that are sums of series: nothing here refers to the model. *)
From Coq Require Import Arith Reals Lia.
From Coquelicot Require Import Coquelicot.
From Verif Require Import Stat_spec.
Local Open Scope R_scope.

(** Rising factorial a (a+1) ... (a+n-1). *)
Fixpoint rising (a : R) (n : nat) : R := match n with O => 1 | S k => rising a k * (a + INR k) end.

(** [is_gamma z g]: g is Gamma(z) for any real z other than 0, -1, -2, ...: Euler's integral at some
    z + n > 0, carried back by Gamma(z) = Gamma(z + n) / (z (z+1) ... (z+n-1)). *)
Definition is_gamma (z g : R) : Prop :=
  (forall k, z + INR k <> 0) /\ exists n, 0 < z + INR n /\ euler_gamma (z + INR n) (rising z n * g).

(** The n-th term of Gauss's hypergeometric series. *)
Definition gauss_term (a b c z : R) (n : nat) : R :=
  rising a n * rising b n / rising c n * z ^ n / INR (fact n).

(** The n-th term of the series gamma(a,x) = x^a e^-x / a * sum x^n / ((a+1) ... (a+n)). *)
Definition lower_gamma_term (a x : R) (n : nat) : R := x ^ n / rising (a + 1) n.

(** [incomplete_beta p q F]: F(x) is the integral of t^(p-1) (1-t)^(q-1) from 0 to x, for 0 < x < 1. *)
Definition incomplete_beta (p q : R) (F : R -> R) : Prop :=
  (forall x, 0 < x < 1 -> is_derive F x (Rpower x (p - 1) * Rpower (1 - x) (q - 1))) /\
  filterlim F (at_right 0) (locally 0).

(** Euler's integral for Gauss's function with first parameter 1/2 and third 3/2 (t = s^2 in the usual
    form): F(1/2, k; 3/2; z) is the integral of (1 - z s^2)^-k over [0,1], for every z <= 0. *)
Definition f21_half (k z : R) : R := RInt (fun s => Rpower (1 - z * (s * s)) (- k)) 0 1.

(** [is_digamma x psi]: Gauss's limit, psi = lim (ln n - sum of 1/(x+k) for k = 0..n). *)
Definition is_digamma (x psi : R) : Prop :=
  (forall k, x + INR k <> 0) /\
  is_lim_seq (fun n => ln (INR n) - sum_f_R0 (fun k => / (x + INR k)) n) psi.
