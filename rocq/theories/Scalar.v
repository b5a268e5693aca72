(** Scalar operations the generic code is written against, and the laws of exact instances. *)
From Coq Require Import Arith Lia List Bool ZArith QArith Qcanon Reals Lra.
From Coq Require Import Ring_theory Ring.
From Coq Require Import SpecFloat.

(** The operations of [T: Field + Scalar] used by the generic code; no laws.
    Models the trait bounds in src/algebra/abstr/field.rs and src/algebra/abstr/scalar.rs:1-209
    ([Identity], [Add], [Sub], [Mul], [Div], [Neg], [PartialEq], [PartialOrd], [Sign::abs]).
    [ltb x y] is [x < y] (and [y > x]), [leb x y] is [x <= y] (and [y >= x]); for floats these
    are independent because of NaN. *)
Class Ops (T : Type) := {
  zero : T;
  one : T;
  add : T -> T -> T;
  sub : T -> T -> T;
  mul : T -> T -> T;
  div : T -> T -> T;
  neg : T -> T;
  eqb : T -> T -> bool;
  ltb : T -> T -> bool;
  leb : T -> T -> bool;
  tabs : T -> T
}.

Declare Scope sc_scope.
Delimit Scope sc_scope with sc.
Notation "x + y" := (add x y) : sc_scope.
Notation "x - y" := (sub x y) : sc_scope.
Notation "x * y" := (mul x y) : sc_scope.
Notation "x / y" := (div x y) : sc_scope.
Notation "- x" := (neg x) : sc_scope.
Notation "0" := zero : sc_scope.
Notation "1" := one : sc_scope.

(** The operations of [T: Power] (src/elementary/power.rs) and the float literals 2.0 and 0.5
    ([T::from_f64]) used by the generic linear algebra; no laws. *)
Class POps (T : Type) := {
  tsqrt : T -> T;
  tpow : T -> T -> T;
  two : T;
  half : T
}.

(** ** Laws of exact arithmetic *)

(** Element equality decides Leibniz equality (true of integers, rationals, exact reals; false
    of floats because of NaN and signed zeros). *)
Definition EqLaws {T} (O : Ops T) : Prop := forall x y, eqb x y = true <-> x = y.

Record RingLaws {T} (O : Ops T) : Prop := mkRingLaws {
  rl_ring : ring_theory zero one add mul sub neg (@eq T)
}.

(** A field; [x / 0] is left unspecified. *)
Record FieldLaws {T} (O : Ops T) : Prop := mkFieldLaws {
  fl_ring : RingLaws O;
  fl_one_zero : one <> zero;
  fl_div : forall x y, y <> zero -> mul (div x y) y = x;
  fl_eq : EqLaws O
}.

(** The strict order [<] is a strict weak order and [<=] is its complement (true of integers,
    rationals, exact reals; false of floats with NaN). *)
Record OrdLaws {T} (O : Ops T) : Prop := mkOrdLaws {
  ol_irrefl : forall x, ltb x x = false;
  ol_trans : forall x y z, ltb x y = true -> ltb y z = true -> ltb x z = true;
  ol_weak : forall x y z, ltb x z = true -> ltb x y = true \/ ltb y z = true;
  ol_leb : forall x y, leb x y = negb (ltb y x)
}.

(** ** Finite sums, accumulated from the left starting at zero: exactly the order of the loops. *)
Fixpoint sumn {T} {O : Ops T} (n : nat) (f : nat -> T) : T :=
  match n with
  | O => zero
  | S k => add (sumn k f) (f k)
  end.

(** ** Instances *)

(** Exact rationals. *)
Definition Qc_eqb (x y : Qc) : bool := if Qc_eq_dec x y then true else false.
Definition Qc_ltb (x y : Qc) : bool := match Qccompare x y with Lt => true | _ => false end.
Definition Qc_leb (x y : Qc) : bool := match Qccompare x y with Gt => false | _ => true end.
#[global] Instance Qc_ops : Ops Qc := {
  zero := Q2Qc 0; one := Q2Qc 1; add := Qcplus; sub := Qcminus; mul := Qcmult;
  div := Qcdiv; neg := Qcopp; eqb := Qc_eqb; ltb := Qc_ltb; leb := Qc_leb;
  tabs := fun x => if Qc_ltb x (Q2Qc 0) then Qcopp x else x
}.

(** Exact reals. *)
Definition R_eqb (x y : R) : bool := if Req_EM_T x y then true else false.
Definition R_ltb (x y : R) : bool := if Rlt_dec x y then true else false.
Definition R_leb (x y : R) : bool := if Rle_dec x y then true else false.
#[global] Instance R_ops : Ops R := {
  zero := 0%R; one := 1%R; add := Rplus; sub := Rminus; mul := Rmult;
  div := Rdiv; neg := Ropp; eqb := R_eqb; ltb := R_ltb; leb := R_leb; tabs := Rabs
}.

(** IEEE-754 binary64 arithmetic, round to nearest even ([f64]), as stdlib [SpecFloat]. *)
Definition f64 := spec_float.
#[global] Instance F64_ops : Ops f64 := {
  zero := S754_zero false;
  one := S754_finite false 4503599627370496 (-52);
  add := SFadd 53 1024; sub := SFsub 53 1024; mul := SFmul 53 1024;
  div := SFdiv 53 1024; neg := SFopp; eqb := SFeqb; ltb := SFltb; leb := SFleb;
  tabs := SFabs
}.

Lemma Qc_EqLaws : EqLaws Qc_ops.
Proof.
  intros x y. simpl. unfold Qc_eqb. destruct (Qc_eq_dec x y); split; auto; discriminate.
Qed.

Lemma Qc_RingLaws : RingLaws Qc_ops.
Proof. constructor. exact Qcrt. Qed.

Lemma Qc_FieldLaws : FieldLaws Qc_ops.
Proof.
  constructor; [exact Qc_RingLaws | | | exact Qc_EqLaws].
  - simpl. intro H. discriminate (f_equal this H).
  - simpl. intros x y Hy. unfold Qcdiv. rewrite <- Qcmult_assoc, (Qcmult_comm (/ y) y).
    rewrite Qcmult_inv_r by assumption. apply Qcmult_1_r.
Qed.

Lemma R_EqLaws : EqLaws R_ops.
Proof.
  intros x y. simpl. unfold R_eqb. destruct (Req_EM_T x y); split; auto; discriminate.
Qed.

Lemma R_RingLaws : RingLaws R_ops.
Proof. constructor. simpl. constructor; intros; ring. Qed.

Lemma R_FieldLaws : FieldLaws R_ops.
Proof.
  constructor; [exact R_RingLaws | | | exact R_EqLaws].
  - simpl. exact R1_neq_R0.
  - simpl. intros x y Hy. field. assumption.
Qed.

Lemma R_ltb_true x y : R_ltb x y = true <-> (x < y)%R.
Proof. unfold R_ltb. destruct (Rlt_dec x y); split; auto; discriminate. Qed.
Lemma R_ltb_false x y : R_ltb x y = false <-> (y <= x)%R.
Proof.
  unfold R_ltb. destruct (Rlt_dec x y); split; intros; try discriminate; try lra; auto.
Qed.
Lemma R_leb_true x y : R_leb x y = true <-> (x <= y)%R.
Proof. unfold R_leb. destruct (Rle_dec x y); split; auto; discriminate. Qed.
Lemma R_leb_false x y : R_leb x y = false <-> (y < x)%R.
Proof.
  unfold R_leb. destruct (Rle_dec x y); split; intros; try discriminate; try lra; auto.
Qed.
Lemma R_eqb_true x y : R_eqb x y = true <-> x = y.
Proof. unfold R_eqb. destruct (Req_EM_T x y); split; auto; discriminate. Qed.
Lemma R_eqb_false x y : R_eqb x y = false <-> x <> y.
Proof. unfold R_eqb. destruct (Req_EM_T x y); split; auto; intros; try discriminate; contradiction. Qed.

Lemma R_OrdLaws : OrdLaws R_ops.
Proof.
  constructor; simpl.
  - intros x. apply R_ltb_false. lra.
  - intros x y z H1 H2. apply R_ltb_true in H1, H2. apply R_ltb_true. lra.
  - intros x y z H. apply R_ltb_true in H. rewrite !R_ltb_true.
    destruct (Rlt_dec x y); [left; assumption | right; lra].
  - intros x y. destruct (R_ltb y x) eqn:E; simpl.
    + apply R_ltb_true in E. apply R_leb_false. assumption.
    + apply R_ltb_false in E. apply R_leb_true. assumption.
Qed.

Lemma Qc_ltb_true (x y : Qc) : Qc_ltb x y = true <-> (x < y)%Qc.
Proof.
  unfold Qc_ltb. rewrite Qclt_alt. destruct (x ?= y)%Qc; split; auto; discriminate.
Qed.
Lemma Qc_leb_true (x y : Qc) : Qc_leb x y = true <-> (x <= y)%Qc.
Proof.
  unfold Qc_leb. rewrite Qcle_alt. destruct (x ?= y)%Qc; split; auto; try discriminate; congruence.
Qed.

Lemma Qc_OrdLaws : OrdLaws Qc_ops.
Proof.
  constructor; simpl.
  - intros x. destruct (Qc_ltb x x) eqn:E; [|reflexivity]. apply Qc_ltb_true in E.
    destruct (Qclt_not_eq _ _ E eq_refl).
  - intros x y z H1 H2. apply Qc_ltb_true in H1, H2. apply Qc_ltb_true. eapply Qclt_trans; eauto.
  - intros x y z H. rewrite !Qc_ltb_true. apply Qc_ltb_true in H.
    destruct (Qclt_le_dec x y); [auto|right]. eapply Qcle_lt_trans; eauto.
  - intros x y. destruct (Qc_ltb y x) eqn:E; simpl.
    + apply Qc_ltb_true in E. destruct (Qc_leb x y) eqn:E2; [|reflexivity]. apply Qc_leb_true in E2.
      destruct (Qclt_not_le _ _ E E2).
    + apply Qc_leb_true. apply Qcnot_lt_le. intro H. apply Qc_ltb_true in H. congruence.
Qed.

(** Integer literals for examples. *)
Definition qz (z : Z) : Qc := Q2Qc (inject_Z z).
Definition qf (z : Z) (p : positive) : Qc := Q2Qc (z # p).
