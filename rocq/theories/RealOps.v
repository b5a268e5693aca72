(** The powers of exact reals used to instantiate the models.  Definitions and basic facts. *)
From Coq Require Import Reals Lra Lia ZArith.
From Verif Require Import Scalar.
Local Open Scope R_scope.

(** num/primitives/mod.rs:420-436 (f32/f64 [powf], [sqrt]) over exact reals.  Where the float
    function returns NaN (negative base with a non-integer exponent; [sqrt] of a negative
    number) the real function returns some real number, so theorems have to exclude these
    arguments by hypothesis.  0^y for y < 0 (infinite for floats) is 0 here. *)
Definition R_pow (x y : R) : R :=
  if Req_EM_T y 0 then 1
  else if Req_EM_T x 0 then 0
  else if Rlt_dec 0 x then Rpower x y
  else if Req_EM_T (IZR (up y - 1)) y
       then (if Z.even (up y - 1) then Rpower (- x) y else - Rpower (- x) y)
       else 0.

#[global] Instance R_pops : POps R := { tsqrt := sqrt; tpow := R_pow; two := 2; half := 1 / 2 }.

Lemma R_pow_pos x y : 0 < x -> R_pow x y = Rpower x y.
Proof.
  intros H. unfold R_pow. destruct (Req_EM_T y 0) as [->|]; [rewrite Rpower_O; auto|].
  destruct (Req_EM_T x 0); [lra|]. destruct (Rlt_dec 0 x); [reflexivity|lra].
Qed.

Lemma up_IZR k : up (IZR k) = (k + 1)%Z.
Proof. symmetry. apply tech_up; rewrite plus_IZR; lra. Qed.

Lemma R_pow_nat x k : R_pow x (INR k) = x ^ k.
Proof.
  unfold R_pow. destruct (Req_EM_T (INR k) 0) as [E|E].
  { destruct k; [reflexivity|]. rewrite S_INR in E. pose proof (pos_INR k). lra. }
  destruct (Req_EM_T x 0) as [->|Ex].
  { rewrite pow_ne_zero; [reflexivity|]. intro. subst k. apply E. reflexivity. }
  destruct (Rlt_dec 0 x) as [Hx|Hx].
  { apply Rpower_pow. assumption. }
  assert (Hn : 0 < - x) by lra.
  rewrite INR_IZR_INZ. rewrite up_IZR. replace (Z.of_nat k + 1 - 1)%Z with (Z.of_nat k) by lia.
  destruct (Req_EM_T (IZR (Z.of_nat k)) (IZR (Z.of_nat k))); [|congruence].
  rewrite <- INR_IZR_INZ. rewrite Rpower_pow by assumption.
  replace x with (-1 * - x) at 3 by ring. rewrite Rpow_mult_distr.
  destruct (Z.even (Z.of_nat k)) eqn:Ev.
  - apply Z.even_spec in Ev. destruct Ev as [q Hq].
    assert (Hk : k = (2 * Z.to_nat q)%nat) by lia. rewrite Hk, pow_1_even. ring.
  - assert (Od : Z.odd (Z.of_nat k) = true) by (rewrite <- Z.negb_even, Ev; reflexivity).
    apply Z.odd_spec in Od. destruct Od as [q Hq].
    assert (Hk : k = S (2 * Z.to_nat q)) by lia. rewrite Hk, pow_1_odd. ring.
Qed.

Lemma R_pow_2 x : R_pow x 2 = x * x.
Proof. replace 2 with (INR 2) by (simpl; lra). rewrite R_pow_nat. simpl. ring. Qed.

Lemma R_pow_half x : 0 <= x -> R_pow x (1 / 2) = sqrt x.
Proof.
  intros H. destruct (Req_dec x 0) as [->|Hx].
  - unfold R_pow. rewrite sqrt_0. destruct (Req_EM_T (1/2) 0); [lra|]. destruct (Req_EM_T 0 0); [reflexivity|lra].
  - rewrite R_pow_pos by lra. replace (1/2) with (/2) by lra. apply Rpower_sqrt. lra.
Qed.

Lemma R_pow_one x : R_pow x 1 = x.
Proof. replace 1 with (INR 1) by reflexivity. rewrite R_pow_nat. simpl. ring. Qed.

(** f64 and f32: [Power::pow] is [powf], [Power::sqrt] is [powf(0.5)] (num/primitives/mod.rs:422-435).
    [powf] is a parameter (its rounding is platform dependent), so a theorem about [F64_pops pw]
    holds whatever [powf] returns. *)
From Coq Require Import SpecFloat.
Definition F64_pops (pw : f64 -> f64 -> f64) : POps f64 :=
  {| tsqrt := fun x => pw x (S754_finite false 4503599627370496 (-53)); tpow := pw;
     two := S754_finite false 4503599627370496 (-51); half := S754_finite false 4503599627370496 (-53) |}.
