(** The reported orders are the exact ones: some condition of the next order fails. *)
From Coq Require Import Arith List Bool Lia ZArith QArith Reals Qreals Lra.
From Verif Require Import Outcome Scalar RealOps Matrix_model Ode_model Ode_spec Matrix_proofs Sums OdeOrder_proofs.
Import ListNotations.
Local Close Scope Q_scope.
Local Existing Instance Qr_ops.

Fixpoint tall (n : nat) : tree := match n with O => Node [] | S n => Node [tall n] end.
Definition bush (n : nat) : tree := Node (repeat (Node []) n).
Definition fails (a b : list Q) (p : nat) (t : tree) : bool :=
  (torder t <=? p) && negb (Qeq_bool (mul (sumn (length b) (fun j => mul (b_of b j) (tphi (a_of a) t j))) (inject_Z (Z.of_nat (tgamma t)))) 1%Q).

Lemma fails_order a b c p t : fails a b p t = true -> ~ has_order (map Q2R a) (map Q2R b) (map Q2R c) p.
Proof.
  intros H Hord. apply andb_true_iff in H as (Ht & H). apply Nat.leb_le in Ht. specialize (Hord t Ht). apply negb_true_iff in H.
  enough (E : Qeq_bool (mul (sumn (length b) (fun j => mul (b_of b j) (tphi (a_of a) t j))) (inject_Z (Z.of_nat (tgamma t)))) 1%Q = true) by congruence.
  apply Qeq_eq_bool, eqR_Qeq. rewrite h_mul. cbn [mul R_ops]. rewrite h_sumn. rewrite map_length in Hord.
  assert (Hg : Q2R (inject_Z (Z.of_nat (tgamma t))) = INR (tgamma t)).
  { unfold Q2R. simpl. rewrite INR_IZR_INZ. lra. }
  rewrite Hg. replace (Q2R 1) with 1%R by (unfold Q2R; simpl; lra).
  assert (Hp : INR (tgamma t) <> 0%R) by (apply not_0_INR; pose proof (tgamma_pos t); lia).
  replace 1%R with (1 / INR (tgamma t) * INR (tgamma t))%R by (field; exact Hp). f_equal. rewrite <- Hord.
  apply sumn_ext. intros j Hj. rewrite h_mul, h_b, h_phi. reflexivity.
Qed.

Ltac not_next M t := rewrite M; cbn [mapB mapB2 ta tb tc ta2 tb2 tbs2 tc2]; apply (fails_order _ _ _ _ t); vm_compute; reflexivity.

Lemma fixed_exact B p : In (B, p) fixed_list -> ~ has_order (ta B) (tb B) (tc B) (S p).
Proof.
  intros H. cbn [In fixed_list] in H.
  repeat match type of H with _ \/ _ => destruct H as [H|H] end; try contradiction; injection H as <- <-.
  - not_next m_euler (tall 1).
  - not_next m_midpoint (tall 2).
  - not_next m_heun2 (tall 2).
  - not_next m_ralston2 (tall 2).
  - not_next m_heun3 (tall 3).
  - not_next m_kutta3 (tall 3).
  - not_next m_ralston3 (tall 3).
  - not_next m_ssprk3 (tall 3).
  - not_next m_rk4 (tall 4).
  - not_next m_kutta38 (tall 4).
Qed.

Lemma embedded_exact B p p' : In (B, (p, p')) embedded_list ->
  ~ has_order (ta2 B) (tb2 B) (tc2 B) (S p) /\ ~ has_order (ta2 B) (tbs2 B) (tc2 B) (S p').
Proof.
  intros H. cbn [In embedded_list] in H.
  repeat match type of H with _ \/ _ => destruct H as [H|H] end; try contradiction; injection H as <- <- <-.
  - split; [not_next m_fehlberg12 (tall 2)|not_next m_fehlberg12 (tall 1)].
  - split; [not_next m_bs23 (tall 3)|not_next m_bs23 (tall 2)].
  - split; [not_next m_fehlberg45 (tall 5)|not_next m_fehlberg45 (tall 4)].
  - split; [not_next m_dp (tall 5)|not_next m_dp (tall 4)].
Qed.
Lemma cash_karp_exact : let B := (cash_karp45 : tableau2 R) in ~ has_order (ta2 B) (tbs2 B) (tc2 B) 6.
Proof. cbv zeta. not_next m_ck45 (tall 5). Qed.
