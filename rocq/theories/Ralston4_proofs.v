(** Ralston's fourth-order tableau: the order conditions, checked exactly in Q(sqrt 5). *)
From Coq Require Import Arith Lia List Bool ZArith QArith Qreals Reals Lra.
From Verif Require Import Outcome Scalar Matrix_model Vector_model Matrix_spec Sums Ode_model Ode_spec OdeOrder_proofs.
Import ListNotations.
Local Open Scope R_scope.

(** Pairs (p, q) stand for p + q sqrt 5; division is only used with rational divisors. *)
Definition K := (Q * Q)%type.
Definition kR (x : K) : R := Q2R (fst x) + Q2R (snd x) * sqrt 5.
#[local] Instance K_ops : Ops K := {
  zero := (0, 0)%Q; one := (1, 0)%Q;
  add x y := (Qred (fst x + fst y), Qred (snd x + snd y)); sub x y := (Qred (fst x - fst y), Qred (snd x - snd y));
  mul x y := (Qred (fst x * fst y + 5 * (snd x * snd y)), Qred (fst x * snd y + snd x * fst y));
  div x y := (Qred (fst x / fst y), Qred (snd x / fst y)); neg x := (Qred (- fst x), Qred (- snd x));
  eqb x y := Qeq_bool (fst x) (fst y) && Qeq_bool (snd x) (snd y);
  ltb x y := false; leb x y := false; tabs x := x }.
Lemma k_zero : kR zero = 0. Proof. unfold kR. simpl. unfold Q2R. simpl. lra. Qed.
Lemma k_one : kR one = 1. Proof. unfold kR. simpl. unfold Q2R. simpl. lra. Qed.
Lemma k_add x y : kR (add x y) = kR x + kR y.
Proof. unfold kR. cbn [add K_ops fst snd]. rewrite !Q2R_red, !Q2R_plus. ring. Qed.
Lemma k_sub x y : kR (sub x y) = kR x - kR y.
Proof. unfold kR. cbn [sub K_ops fst snd]. rewrite !Q2R_red, !Q2R_minus. ring. Qed.
Lemma k_neg x : kR (neg x) = - kR x.
Proof. unfold kR. cbn [neg K_ops fst snd]. rewrite !Q2R_red, !Q2R_opp. ring. Qed.
Lemma k_mul x y : kR (mul x y) = kR x * kR y.
Proof.
  unfold kR. cbn [mul K_ops fst snd]. rewrite !Q2R_red, !Q2R_plus, !Q2R_mult. replace (Q2R 5) with (sqrt 5 * sqrt 5); [ring|].
  rewrite sqrt_sqrt by lra. unfold Q2R. simpl. lra.
Qed.
Lemma k_of_pos p : kR (of_pos p) = IZR (Zpos p) /\ snd (of_pos p : K) = 0%Q.
Proof.
  induction p as [p (IH & J)|p (IH & J)|]; cbn [of_pos].
  - rewrite !k_add, k_one, IH. split; [rewrite <- !plus_IZR; f_equal; lia|]. cbn [add K_ops snd one fst]. rewrite J. reflexivity.
  - rewrite !k_add, IH. split; [rewrite <- !plus_IZR; f_equal; lia|]. cbn [add K_ops snd fst]. rewrite J. reflexivity.
  - split; [exact k_one|reflexivity].
Qed.
Lemma k_of_Z z : kR (of_Z z) = IZR z.
Proof. destruct z; cbn [of_Z]; [exact k_zero|apply k_of_pos|rewrite k_neg, (proj1 (k_of_pos p)); reflexivity]. Qed.
Lemma k_div x p : kR (div x (of_pos p)) = kR x / IZR (Zpos p).
Proof.
  destruct (k_of_pos p) as (E & J). unfold kR in E |- *. rewrite J in E. assert (E' : Q2R (fst (of_pos p : K)) = IZR (Zpos p)) by (rewrite <- E; unfold Q2R at 3; simpl; lra).
  assert (N : IZR (Zpos p) <> 0) by (apply not_0_IZR; discriminate).
  assert (NQ : ~ (fst (of_pos p : K) == 0)%Q) by (intro H; apply Qeq_eqR in H; rewrite E' in H; apply N; rewrite H; unfold Q2R; simpl; lra).
  cbn [div K_ops fst snd]. rewrite !Q2R_red, !Q2R_div by exact NQ. rewrite E'. field. exact N.
Qed.
Lemma k_lit z p : kR (lit z p) = IZR z / IZR (Zpos p).
Proof. unfold lit. rewrite k_div, k_of_Z. reflexivity. Qed.
Lemma k_sumn n (f : nat -> K) : kR (sumn n f) = sumn n (fun i => kR (f i)).
Proof. induction n as [|n IH]; cbn [sumn]; [exact k_zero|]. rewrite k_add, IH. reflexivity. Qed.
Lemma k_nth (l : list K) i : nth i (map kR l) zero = kR (nth i l zero).
Proof. change (@zero R R_ops) with 0. rewrite <- k_zero. apply map_nth. Qed.
Lemma k_phi (l : list K) : forall t j, tphi (a_of (map kR l)) t j = kR (tphi (a_of l) t j).
Proof.
  fix IH 1. intros [ts] j. cbn [tphi].
  induction ts as [|t ts IHts]; cbn [fold_right]; [symmetry; apply k_one|].
  rewrite k_mul, <- IHts, k_sumn. cbn [mul R_ops]. f_equal. apply sumn_ext. intros k Hk. rewrite k_mul, <- IH. unfold a_of. rewrite k_nth. reflexivity.
Qed.
Definition kcheck_order (a b : list K) (p : nat) : bool :=
  forallb (fun t => eqb (mul (sumn (length b) (fun j => mul (b_of b j) (tphi (a_of a) t j))) (inject_Z (Z.of_nat (tgamma t)), 0%Q)) one) (trees p).
Definition kcheck_rows (a b c : list K) : bool := forallb (fun j => eqb (c_of c j) (sumn j (fun l => a_of a j l))) (seq 0 (length b)).
Lemma k_eqb x y : eqb x y = true -> kR x = kR y.
Proof. cbn [eqb K_ops]. intro H. apply andb_true_iff in H as (H1 & H2). apply Qeq_bool_eq, Qeq_eqR in H1, H2. unfold kR. rewrite H1, H2. reflexivity. Qed.
Lemma kcheck_order_ok a b c p : kcheck_order a b p = true -> has_order (map kR a) (map kR b) c p.
Proof.
  intros H t Ht. unfold kcheck_order in H. rewrite forallb_forall in H. specialize (H t (trees_complete p t Ht)). apply k_eqb in H. rewrite k_mul, k_one, k_sumn in H. rewrite map_length.
  assert (Hg : kR (inject_Z (Z.of_nat (tgamma t)), 0%Q) = INR (tgamma t)). { unfold kR, Q2R. simpl. rewrite INR_IZR_INZ. lra. }
  rewrite Hg in H. assert (Hp : INR (tgamma t) <> 0%R) by (apply not_0_INR; pose proof (tgamma_pos t); lia).
  apply (Rmult_eq_reg_r (INR (tgamma t))); [|exact Hp]. replace (1 / INR (tgamma t) * INR (tgamma t)) with 1 by (field; exact Hp). rewrite <- H. f_equal. apply sumn_ext. intros j Hj.
  rewrite k_mul, k_phi. unfold b_of. rewrite k_nth. reflexivity.
Qed.
Lemma kcheck_rows_ok a b c : kcheck_rows a b c = true -> row_sums (map kR a) (map kR b) (map kR c).
Proof.
  intros H j Hj. rewrite map_length in Hj. unfold kcheck_rows in H. rewrite forallb_forall in H. specialize (H j ltac:(apply in_seq; lia)). apply k_eqb in H. rewrite k_sumn in H.
  assert (E : c_of (map kR c) j = kR (c_of c j)) by (destruct j; [symmetry; apply k_zero|apply k_nth]). rewrite E, H. apply sumn_ext. intros. unfold a_of. symmetry. apply k_nth.
Qed.
(** The weights with 3346 in place of 3356. *)
Definition fix3 {T} {O : Ops T} (s5 : T) (b : list T) : list T := firstn 2 b ++ [div (mul (of_Z 1024) (add (of_Z 3346) (mul (of_Z 1623) s5))) (of_Z 5924787)] ++ skipn 3 b.
Lemma k_tab : let B := ralston4 (sqrt 5) in let BK := ralston4 ((0, 1)%Q : K) in
  ta B = map kR (ta BK) /\ fix3 (sqrt 5) (tb B) = map kR (fix3 ((0, 1)%Q : K) (tb BK)) /\ tc B = map kR (tc BK).
Proof.
  cbv zeta. assert (S5 : kR (0, 1)%Q = sqrt 5) by (unfold kR, Q2R; simpl; lra).
  unfold ralston4, fix3. cbn [ta tb tc map firstn skipn app].
  repeat split; rewrite ?lit_R, ?k_lit, ?k_one; repeat match goal with |- context [@div K K_ops ?n (of_Z (Zpos ?p))] => change (@div K K_ops n (of_Z (Zpos p))) with (@div K K_ops n (of_pos p)) end;
    rewrite ?k_div, ?k_add, ?k_sub, ?k_mul, ?k_add, ?k_sub, ?k_mul, ?k_of_Z, ?S5, ?of_Z_R; reflexivity.
Qed.
Lemma ralston4_fixed : let B := ralston4 (sqrt 5) in row_sums (ta B) (tb B) (tc B) /\ has_order (ta B) (fix3 (sqrt 5) (tb B)) (tc B) 4.
Proof.
  cbv zeta. destruct k_tab as (E1 & E2 & E3). rewrite E1, E2, E3. split.
  - assert (H : row_sums (map kR (ta (ralston4 ((0, 1)%Q : K)))) (map kR (fix3 ((0, 1)%Q : K) (tb (ralston4 ((0, 1)%Q : K))))) (map kR (tc (ralston4 ((0, 1)%Q : K)))))
      by (apply kcheck_rows_ok; vm_compute; reflexivity). exact H.
  - apply kcheck_order_ok. vm_compute. reflexivity.
Qed.
