(** Property theorem C67: elementary functions of the primitive floats, over exact reals.

    Reading guide.  [ecot], [earcsin], ... are the crate's trait functions for f32/f64; the ones that
    can panic return an [outcome].  The libm functions they call are read as the exact real functions. *)
From Coq Require Import Reals Lra.
From Verif Require Import Outcome Scalar RealOps Elem_model Elem_proofs.
Local Open Scope R_scope.

Theorem C67_arcsin : forall x : R,
  (-1 <= x <= 1 -> exists y, earcsin x = Ret y /\ sin y = x /\ - (PI / 2) <= y <= PI / 2) /\
  (x < -1 \/ 1 < x -> earcsin x = Panic).
Proof. exact earcsin_ok. Qed.
Print Assumptions C67_arcsin.
Theorem C67_arccos : forall x : R,
  (-1 <= x <= 1 -> exists y, earccos x = Ret y /\ cos y = x /\ 0 <= y <= PI) /\
  (x < -1 \/ 1 < x -> earccos x = Panic).
Proof. exact earccos_ok. Qed.
Print Assumptions C67_arccos.
Theorem C67_arctan : forall x : R, tan (earctan x) = x /\ - (PI / 2) < earctan x < PI / 2 /\
  forall y, - (PI / 2) < y < PI / 2 -> earctan (tan y) = y.
Proof. exact earctan_ok. Qed.
Print Assumptions C67_arctan.

Theorem C67_arccot : forall x : R, x <> 0 -> ecot (earccot x) = x.
Proof. exact earccot_ok. Qed.
Print Assumptions C67_arccot.
(** At zero the crate returns 0, where the cotangent is not even defined, instead of pi/2. *)
Theorem C67_arccot_zero_refuted : earccot 0 = 0 /\ sin (earccot 0) = 0 /\ cos (earccot 0) <> 0.
Proof. destruct earccot_zero as [E H]. rewrite E in *. split; [reflexivity|]. split; [exact sin_0|exact H]. Qed.
Print Assumptions C67_arccot_zero_refuted.

Theorem C67_arcsec_arccsc : forall x : R, 1 <= Rabs x -> esec (earcsec x) = x /\ ecsc (earccsc x) = x.
Proof. intros x H. split; [exact (earcsec_ok x H)|exact (earccsc_ok x H)]. Qed.
Print Assumptions C67_arcsec_arccsc.

Theorem C67_coth_csch : forall x : R,
  (x <> 0 -> sinh x <> 0 /\ ecoth x = Ret (cosh x / sinh x) /\ ecsch x = Ret (1 / sinh x)) /\
  (x = 0 -> ecoth x = Panic /\ ecsch x = Panic).
Proof.
  intros x. split.
  - intros H. split; [intro E; apply H; apply sinh_zero_iff; exact E|]. split; [exact (ecoth_ok x H)|exact (ecsch_ok x H)].
  - intros ->. exact zero_panics.
Qed.
Print Assumptions C67_coth_csch.

Theorem C67_arsinh : forall x : R, sinh (earsinh x) = x /\ earsinh (sinh x) = x.
Proof. intros x. split; [exact (arsinh_ok x)|exact (arsinh_sinh x)]. Qed.
Print Assumptions C67_arsinh.
Theorem C67_arcosh : forall x : R, 1 <= x -> cosh (earcosh x) = x /\ 0 <= earcosh x.
Proof. exact arcosh_ok. Qed.
Print Assumptions C67_arcosh.
Theorem C67_artanh : forall x : R,
  (-1 < x < 1 -> exists y, eartanh x = Ret y /\ tanh y = x) /\ (x <= -1 \/ 1 <= x -> eartanh x = Panic) /\
  eartanh (tanh x) = Ret x.
Proof. exact artanh_all. Qed.
Print Assumptions C67_artanh.
Theorem C67_arcoth : forall x : R,
  (x < -1 \/ 1 < x -> exists y, earcoth x = Ret y /\ ecoth y = Ret x) /\ (-1 <= x <= 1 -> earcoth x = Panic).
Proof. intros x. split; [exact (arcoth_ok x)|exact (arcoth_panics x)]. Qed.
Print Assumptions C67_arcoth.
Theorem C67_arsech : forall x : R,
  (0 < x <= 1 -> exists y, earsech x = Ret y /\ esech y = x) /\ (x <= 0 \/ 1 < x -> earsech x = Panic).
Proof. intros x. split; [exact (arsech_ok x)|exact (arsech_panics x)]. Qed.
Print Assumptions C67_arsech.
Theorem C67_arcsch : forall x : R, x <> 0 -> ecsch (earcsch x) = Ret x.
Proof. exact arcsch_ok. Qed.
Print Assumptions C67_arcsch.
Example C67_example : -1 <= 1 / 2 <= 1 /\ 1 <= Rabs (-2) /\ (1 / 2 < -1 \/ 1 < 3).
Proof. rewrite Rabs_left by lra. lra. Qed.
