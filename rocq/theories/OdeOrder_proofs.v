(** Order conditions of the shipped tableaux: enumeration of rooted trees and an exact rational
    check transferred to the reals. *)
From Coq Require Import Arith Lia List Bool ZArith QArith Qreals Reals Lra.
From Verif Require Import Outcome Scalar Matrix_model Vector_model Matrix_spec Sums Ode_model Ode_spec.
Import ListNotations.
Local Open Scope nat_scope.

(** ** All rooted trees with n nodes *)
Definition forder (ts : list tree) : nat := fold_right (fun t n => torder t + n) 0 ts.
Fixpoint forests (k n : nat) : list (list tree) :=
  match n, k with
  | 0, _ => [[]]
  | S n', 0 => []
  | S n', S k' =>
      flat_map (fun i => flat_map (fun h => map (cons (Node h)) (forests k' (n' - i))) (forests k' i))
               (seq 0 (S n'))
  end.
Lemma forests_complete k : forall n ts, n <= k -> forder ts = n -> In ts (forests k n).
Proof.
  induction k as [|k IH]; intros n ts Hn H.
  - destruct ts as [|[h] ts]; simpl in H; [|lia]. subst. simpl. auto.
  - destruct n as [|n].
    + destruct ts as [|[h] ts]; simpl in H; [|lia]. simpl. auto.
    + destruct ts as [|[h] ts]; [simpl in H; lia|]. cbn [forests].
      apply in_flat_map. exists (forder h).
      assert (Hsum : forder h + forder ts = n) by (unfold forder in *; simpl in H; lia).
      split; [apply in_seq; lia|]. apply in_flat_map. exists h. split; [apply IH; [lia|reflexivity]|].
      apply in_map. apply IH; lia.
Qed.
Definition trees (p : nat) : list tree := flat_map (fun n => map Node (forests n n)) (seq 0 p).
Lemma trees_complete p t : torder t <= p -> In t (trees p).
Proof.
  destruct t as [ts]. intros H. cbn [torder] in H. fold (forder ts) in H. unfold trees.
  apply in_flat_map. exists (forder ts). split; [apply in_seq; lia|]. apply in_map.
  apply forests_complete; [lia|reflexivity].
Qed.

Lemma tgamma_pos t : 0 < tgamma t.
Proof.
  revert t. fix IH 1. intros [ts]. cbn [tgamma].
  apply Nat.mul_pos_pos; [cbn [torder]; lia|].
  induction ts as [|t ts IHts]; simpl; [lia|]. apply Nat.mul_pos_pos; [apply IH|exact IHts].
Qed.

(** ** Exact rational arithmetic (reduced fractions) *)
#[local] Instance Qr_ops : Ops Q := {
  zero := 0%Q; one := 1%Q;
  add x y := Qred (x + y); sub x y := Qred (x - y); mul x y := Qred (x * y);
  div x y := Qred (x / y); neg x := Qred (- x); eqb := Qeq_bool;
  ltb x y := negb (Qle_bool y x); leb := Qle_bool; tabs x := Qred (Qabs.Qabs x) }.

Lemma Q2R_red x : Q2R (Qred x) = Q2R x. Proof. apply Qeq_eqR, Qred_correct. Qed.
Lemma h_add (x y : Q) : Q2R (add x y) = add (Q2R x) (Q2R y).
Proof. cbn [add Qr_ops R_ops]. rewrite Q2R_red. apply Q2R_plus. Qed.
Lemma h_mul (x y : Q) : Q2R (mul x y) = mul (Q2R x) (Q2R y).
Proof. cbn [mul Qr_ops R_ops]. rewrite Q2R_red. apply Q2R_mult. Qed.
Lemma h_sub (x y : Q) : Q2R (sub x y) = sub (Q2R x) (Q2R y).
Proof. cbn [sub Qr_ops R_ops]. rewrite Q2R_red. apply Q2R_minus. Qed.
Lemma h_neg (x : Q) : Q2R (neg x) = neg (Q2R x).
Proof. cbn [neg Qr_ops R_ops]. rewrite Q2R_red. apply Q2R_opp. Qed.
Lemma h_div (x y : Q) : Q2R y <> 0%R -> Q2R (div x y) = div (Q2R x) (Q2R y).
Proof.
  intros H. cbn [div Qr_ops R_ops]. rewrite Q2R_red. apply Q2R_div.
  intro E. apply H. rewrite (Qeq_eqR _ _ E). unfold Q2R. simpl. lra.
Qed.
Lemma h_zero : Q2R (@zero Q Qr_ops) = @zero R R_ops. Proof. unfold Q2R. simpl. lra. Qed.
Lemma h_one : Q2R (@one Q Qr_ops) = @one R R_ops. Proof. unfold Q2R. simpl. lra. Qed.
Lemma of_pos_R p : of_pos p = IZR (Zpos p).
Proof.
  induction p as [p IH|p IH|]; cbn [of_pos].
  - rewrite IH. cbn [add one R_ops]. rewrite <- !plus_IZR. f_equal. lia.
  - rewrite IH. cbn [add one R_ops]. rewrite <- !plus_IZR. f_equal. lia.
  - reflexivity.
Qed.
Lemma of_Z_R z : of_Z z = IZR z.
Proof. destruct z; cbn [of_Z]; rewrite ?of_pos_R; try reflexivity. Qed.
Lemma lit_R p q : lit p q = (IZR p / IZR (Zpos q))%R.
Proof. unfold lit. rewrite of_Z_R, of_pos_R. reflexivity. Qed.
Lemma h_of_pos p : Q2R (of_pos p) = of_pos p.
Proof.
  induction p as [p IH|p IH|]; cbn [of_pos]; rewrite ?h_add, ?IH, ?h_one; reflexivity.
Qed.
Lemma h_of_Z z : Q2R (of_Z z) = of_Z z.
Proof. destruct z; cbn [of_Z]; rewrite ?h_neg, ?h_of_pos, ?h_zero; reflexivity. Qed.
Lemma h_lit p q : Q2R (lit p q) = lit p q.
Proof.
  unfold lit. rewrite h_div, h_of_Z, h_of_pos; [reflexivity|]. rewrite h_of_pos, of_pos_R.
  apply not_0_IZR. discriminate.
Qed.

Lemma h_sumn n (f : nat -> Q) : Q2R (sumn n f) = sumn n (fun i => Q2R (f i)).
Proof. induction n as [|n IH]; cbn [sumn]; rewrite ?h_zero, ?h_add, ?IH; reflexivity. Qed.
Lemma nth_h (l : list Q) i : nth i (map Q2R l) zero = Q2R (nth i l zero).
Proof. rewrite <- h_zero. apply map_nth. Qed.
Lemma h_a l i j : a_of (map Q2R l) i j = Q2R (a_of l i j). Proof. apply nth_h. Qed.
Lemma h_b l i : b_of (map Q2R l) i = Q2R (b_of l i). Proof. apply nth_h. Qed.
Lemma h_c l i : c_of (map Q2R l) i = Q2R (c_of l i).
Proof. destruct i; [symmetry; apply h_zero|apply nth_h]. Qed.
Lemma h_phi (l : list Q) : forall t j, tphi (a_of (map Q2R l)) t j = Q2R (tphi (a_of l) t j).
Proof.
  fix IH 1. intros [ts] j. cbn [tphi].
  induction ts as [|t ts IHts]; cbn [fold_right]; [symmetry; apply h_one|].
  rewrite h_mul, <- IHts, h_sumn. f_equal. apply sumn_ext. intros k Hk. rewrite h_mul, <- IH, h_a. reflexivity.
Qed.

Definition check_order (a b : list Q) (p : nat) : bool :=
  forallb (fun t => Qeq_bool (mul (sumn (length b) (fun j => mul (b_of b j) (tphi (a_of a) t j)))
                                  (inject_Z (Z.of_nat (tgamma t)))) 1) (trees p).
Definition check_rows (a b c : list Q) : bool :=
  forallb (fun j => Qeq_bool (c_of c j) (sumn j (fun l => a_of a j l))) (seq 0 (length b)).

Lemma check_order_ok a b c p : check_order a b p = true -> has_order (map Q2R a) (map Q2R b) (map Q2R c) p.
Proof.
  intros H t Ht. unfold check_order in H. rewrite forallb_forall in H. specialize (H t (trees_complete p t Ht)).
  apply Qeq_bool_eq, Qeq_eqR in H. rewrite h_mul in H. cbn [mul R_ops] in H.
  rewrite h_sumn in H. rewrite map_length.
  assert (Hg : Q2R (inject_Z (Z.of_nat (tgamma t))) = INR (tgamma t)).
  { unfold Q2R. simpl. rewrite INR_IZR_INZ. lra. }
  rewrite Hg in H. replace (Q2R 1) with 1%R in H by (unfold Q2R; simpl; lra).
  assert (Hp : INR (tgamma t) <> 0%R) by (apply not_0_INR; pose proof (tgamma_pos t); lia).
  apply (Rmult_eq_reg_r (INR (tgamma t))); [|exact Hp]. replace (1 / INR (tgamma t) * INR (tgamma t))%R with 1%R by (field; exact Hp).
  rewrite <- H. f_equal. apply sumn_ext. intros j Hj. rewrite h_mul, h_b, h_phi. reflexivity.
Qed.
Lemma check_order_false a b c p :
  existsb (fun t => negb (Qeq_bool (mul (sumn (length b) (fun j => mul (b_of b j) (tphi (a_of a) t j)))
                                  (inject_Z (Z.of_nat (tgamma t)))) 1)) 
     (filter (fun t => torder t <=? p) (trees p)) = true ->
  ~ has_order (map Q2R a) (map Q2R b) (map Q2R c) p.
Proof.
  intros H Hord. apply existsb_exists in H as (t & Hin & H). apply filter_In in Hin as (_ & Ht).
  apply Nat.leb_le in Ht. specialize (Hord t Ht). apply negb_true_iff in H.
  enough (E : Qeq_bool (mul (sumn (length b) (fun j => mul (b_of b j) (tphi (a_of a) t j)))
                                  (inject_Z (Z.of_nat (tgamma t)))) 1 = true) by congruence.
  apply Qeq_eq_bool, eqR_Qeq. rewrite h_mul. cbn [mul R_ops]. rewrite h_sumn. rewrite map_length in Hord.
  assert (Hg : Q2R (inject_Z (Z.of_nat (tgamma t))) = INR (tgamma t)).
  { unfold Q2R. simpl. rewrite INR_IZR_INZ. lra. }
  rewrite Hg. replace (Q2R 1) with 1%R by (unfold Q2R; simpl; lra).
  assert (Hp : INR (tgamma t) <> 0%R) by (apply not_0_INR; pose proof (tgamma_pos t); lia).
  replace 1%R with (1 / INR (tgamma t) * INR (tgamma t))%R by (field; exact Hp). f_equal. rewrite <- Hord.
  apply sumn_ext. intros j Hj. rewrite h_mul, h_b, h_phi. reflexivity.
Qed.
Lemma check_rows_ok a b c : check_rows a b c = true -> row_sums (map Q2R a) (map Q2R b) (map Q2R c).
Proof.
  intros H j Hj. rewrite map_length in Hj. unfold check_rows in H. rewrite forallb_forall in H.
  specialize (H j ltac:(apply in_seq; lia)). apply Qeq_bool_eq, Qeq_eqR in H. rewrite h_c, H, h_sumn.
  apply sumn_ext. intros. symmetry. apply h_a.
Qed.

Ltac tab_map := cbn [map]; rewrite ?h_lit, ?h_neg, ?h_one, ?h_zero; reflexivity.
Definition mapB (B : tableau Q) : tableau R := mkTableau (map Q2R (ta B)) (map Q2R (tb B)) (map Q2R (tc B)).
Definition mapB2 (B : tableau2 Q) : tableau2 R :=
  mkTableau2 (map Q2R (ta2 B)) (map Q2R (tb2 B)) (map Q2R (tbs2 B)) (map Q2R (tc2 B)).

Lemma order_by_check (B : tableau R) (BQ : tableau Q) p : B = mapB BQ ->
  check_rows (ta BQ) (tb BQ) (tc BQ) && check_order (ta BQ) (tb BQ) p = true ->
  row_sums (ta B) (tb B) (tc B) /\ has_order (ta B) (tb B) (tc B) p.
Proof.
  intros -> H. apply andb_true_iff in H as (H1 & H2). cbn [mapB ta tb tc]. split.
  - apply check_rows_ok, H1.
  - apply check_order_ok, H2.
Qed.
Lemma order2_by_check (B : tableau2 R) (BQ : tableau2 Q) p p' : B = mapB2 BQ ->
  check_rows (ta2 BQ) (tb2 BQ) (tc2 BQ) && check_order (ta2 BQ) (tb2 BQ) p && check_order (ta2 BQ) (tbs2 BQ) p' = true ->
  row_sums (ta2 B) (tb2 B) (tc2 B) /\ has_order (ta2 B) (tb2 B) (tc2 B) p /\ has_order (ta2 B) (tbs2 B) (tc2 B) p'.
Proof.
  intros -> H. apply andb_true_iff in H as (H & H3). apply andb_true_iff in H as (H1 & H2).
  cbn [mapB2 ta2 tb2 tbs2 tc2]. split; [|split].
  - apply check_rows_ok, H1.
  - apply check_order_ok, H2.
  - apply check_order_ok, H3.
Qed.

Ltac map_eq D := unfold mapB, mapB2, D; cbn [ta tb tc ta2 tb2 tbs2 tc2 map];
  rewrite ?h_lit, ?h_neg, ?h_one, ?h_zero; reflexivity.

Lemma m_euler : (explicit_euler : tableau R) = mapB explicit_euler. Proof. map_eq (@explicit_euler). Qed.
Lemma m_midpoint : (midpoint : tableau R) = mapB midpoint. Proof. map_eq (@midpoint). Qed.
Lemma m_heun2 : (heun2 : tableau R) = mapB heun2. Proof. map_eq (@heun2). Qed.
Lemma m_ralston2 : (ralston2 : tableau R) = mapB ralston2. Proof. map_eq (@ralston2). Qed.
Lemma m_heun3 : (heun3 : tableau R) = mapB heun3. Proof. map_eq (@heun3). Qed.
Lemma m_kutta3 : (kutta3 : tableau R) = mapB kutta3. Proof. map_eq (@kutta3). Qed.
Lemma m_ralston3 : (ralston3 : tableau R) = mapB ralston3. Proof. map_eq (@ralston3). Qed.
Lemma m_ssprk3 : (ssprk3 : tableau R) = mapB ssprk3. Proof. map_eq (@ssprk3). Qed.
Lemma m_rk4 : (rungekutta4 : tableau R) = mapB rungekutta4. Proof. map_eq (@rungekutta4). Qed.
Lemma m_kutta38 : (kutta38 : tableau R) = mapB kutta38. Proof. map_eq (@kutta38). Qed.
Lemma m_fehlberg12 : (fehlberg12 : tableau2 R) = mapB2 fehlberg12. Proof. map_eq (@fehlberg12). Qed.
Lemma m_bs23 : (bogacki_shampine23 : tableau2 R) = mapB2 bogacki_shampine23. Proof. map_eq (@bogacki_shampine23). Qed.
Lemma m_fehlberg45 : (fehlberg45 : tableau2 R) = mapB2 fehlberg45. Proof. map_eq (@fehlberg45). Qed.
Lemma m_ck45 : (cash_karp45 : tableau2 R) = mapB2 cash_karp45. Proof. map_eq (@cash_karp45). Qed.
Lemma m_dp : (dormand_prince : tableau2 R) = mapB2 dormand_prince. Proof. map_eq (@dormand_prince). Qed.

(** ** All of them at once *)
Lemma fixed_orders B p : In (B, p) fixed_list ->
  row_sums (ta B) (tb B) (tc B) /\ has_order (ta B) (tb B) (tc B) p.
Proof.
  intros H. cbn [In fixed_list] in H.
  repeat match type of H with _ \/ _ => destruct H as [H|H] end; try contradiction; injection H as <- <-.
  - apply (order_by_check _ _ _ m_euler). vm_compute. reflexivity.
  - apply (order_by_check _ _ _ m_midpoint). vm_compute. reflexivity.
  - apply (order_by_check _ _ _ m_heun2). vm_compute. reflexivity.
  - apply (order_by_check _ _ _ m_ralston2). vm_compute. reflexivity.
  - apply (order_by_check _ _ _ m_heun3). vm_compute. reflexivity.
  - apply (order_by_check _ _ _ m_kutta3). vm_compute. reflexivity.
  - apply (order_by_check _ _ _ m_ralston3). vm_compute. reflexivity.
  - apply (order_by_check _ _ _ m_ssprk3). vm_compute. reflexivity.
  - apply (order_by_check _ _ _ m_rk4). vm_compute. reflexivity.
  - apply (order_by_check _ _ _ m_kutta38). vm_compute. reflexivity.
Qed.

Lemma embedded_orders B p p' : In (B, (p, p')) embedded_list ->
  row_sums (ta2 B) (tb2 B) (tc2 B) /\ has_order (ta2 B) (tb2 B) (tc2 B) p /\ has_order (ta2 B) (tbs2 B) (tc2 B) p'.
Proof.
  intros H. cbn [In embedded_list] in H.
  repeat match type of H with _ \/ _ => destruct H as [H|H] end; try contradiction; injection H as <- <- <-.
  - apply (order2_by_check _ _ _ _ m_fehlberg12). vm_compute. reflexivity.
  - apply (order2_by_check _ _ _ _ m_bs23). vm_compute. reflexivity.
  - apply (order2_by_check _ _ _ _ m_fehlberg45). vm_compute. reflexivity.
  - apply (order2_by_check _ _ _ _ m_dp). vm_compute. reflexivity.
Qed.

Lemma cash_karp_swapped : let B := (cash_karp45 : tableau2 R) in
  row_sums (ta2 B) (tb2 B) (tc2 B) /\ has_order (ta2 B) (tb2 B) (tc2 B) 4 /\ has_order (ta2 B) (tbs2 B) (tc2 B) 5.
Proof. apply (order2_by_check _ _ _ _ m_ck45). vm_compute. reflexivity. Qed.
Lemma cash_karp_not5 : let B := (cash_karp45 : tableau2 R) in ~ has_order (ta2 B) (tb2 B) (tc2 B) 5.
Proof. cbv zeta. rewrite m_ck45. cbn [mapB2 ta2 tb2 tc2]. apply check_order_false. vm_compute. reflexivity. Qed.

(** Ralston's fourth-order method: the weights do not sum to one, whatever value near sqrt 5 is
    used for the constant. *)
Lemma ralston4_weight_sum (s5 : R) : (sumn 4 (b_of (tb (ralston4 s5))) <> 1)%R \/ (s5 < 0 \/ 3 < s5)%R.
Proof.
  cbn [sumn b_of nth tb ralston4]. rewrite !of_Z_R. cbn [add mul sub div zero one R_ops]. lra.
Qed.
