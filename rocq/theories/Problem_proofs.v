(** Proofs about the example problems of the ODE solvers. *)
From Coq Require Import Arith List Bool ZArith Reals Lra Lia.
From Coquelicot Require Import Coquelicot.
From Verif Require Import Outcome Scalar Matrix_model Vector_model Ode_model Elem_model Problem_model Problem_spec Matrix_spec Matrix_proofs Vector_proofs RealOps.
Import ListNotations.
Local Open Scope R_scope.

Section Gen.
Context {T : Type} {O : Ops T} {E : EOps T}.
Local Open Scope sc_scope.
Lemma euler_func_col p x (a b c : T) : euler_func p x (col3 a b c) =
  Ret (col3 (((eu_i2 p - eu_i3 p) / eu_i1 p) * (b * c)) (((eu_i3 p - eu_i1 p) / eu_i2 p) * (c * a)) (((eu_i1 p - eu_i2 p) / eu_i3 p) * (a * b) + euler_force x)).
Proof. reflexivity. Qed.
Lemma euler_same p x (y : vector T) : euler_func p x y = euler_func_implicit p x y.
Proof. reflexivity. Qed.
Lemma euler_jac_col p x (a b c : T) : euler_jacobian p x (col3 a b c) =
  Ret (mkMatrix 3 3 [0; ((eu_i3 p - eu_i1 p) / eu_i2 p) * c; ((eu_i1 p - eu_i2 p) / eu_i3 p) * b;
                     ((eu_i2 p - eu_i3 p) / eu_i1 p) * c; 0; ((eu_i1 p - eu_i2 p) / eu_i3 p) * a;
                     ((eu_i2 p - eu_i3 p) / eu_i1 p) * b; ((eu_i3 p - eu_i1 p) / eu_i2 p) * a; 0]).
Proof. reflexivity. Qed.
Lemma vdp_func_col p t (a b : T) : vdp_func p t (col2 a b) = Ret (col2 b (vdp_eps p * (1 - a * a) * b - a)).
Proof. reflexivity. Qed.
Lemma vdp_jac_col p t (a b : T) : vdp_jacobian p t (col2 a b) = Ret (mkMatrix 2 2 [0; (- lit 2 1) * vdp_eps p * a * b - 1; 1; (1 - a * a) * vdp_eps p]).
Proof. reflexivity. Qed.
End Gen.

Lemma litR1 p : lit p 1 = IZR p.
Proof.
  unfold lit. assert (P : forall q, @of_pos R R_ops q = IZR (Zpos q)).
  { induction q; cbn [of_pos]; [rewrite IHq, Pos2Z.inj_xI, plus_IZR, mult_IZR; unfold add, one, R_ops; ring|rewrite IHq, Pos2Z.inj_xO, mult_IZR; unfold add, R_ops; ring|reflexivity]. }
  rewrite P. unfold div, R_ops. rewrite Rdiv_1. destruct p; cbn [of_Z]; [reflexivity|apply P|]. rewrite P. unfold opp, R_ops. rewrite <- opp_IZR. reflexivity.
Qed.
Lemma force_R x : @euler_force R R_ops R_eops x = if Rle_dec (3 * PI) x then if Rle_dec x (4 * PI) then 1 / 4 * sin x * sin x else 0 else 0.
Proof.
  unfold euler_force. rewrite !litR1. unfold leb, mul, tpi, R_ops, R_eops.
  unfold R_leb. destruct (Rle_dec (3 * PI) x); cbn [andb]; [|reflexivity]. destruct (Rle_dec x (4 * PI)); [|reflexivity].
  unfold tsin. f_equal. f_equal. unfold lit. cbn. lra.
Qed.

(** The force is continuous: it vanishes at both ends of its interval. *)
Definition clampR (a b x : R) : R := Rmin (Rmax x a) b.
Lemma sin_3PI : sin (3 * PI) = 0. Proof. apply sin_eq_0_1. exists 3%Z. reflexivity. Qed.
Lemma sin_4PI : sin (4 * PI) = 0. Proof. apply sin_eq_0_1. exists 4%Z. reflexivity. Qed.
Lemma force_clamp x : @euler_force R R_ops R_eops x = 1 / 4 * (sin (clampR (3 * PI) (4 * PI) x) * sin (clampR (3 * PI) (4 * PI) x)).
Proof.
  rewrite force_R. pose proof PI_RGT_0 as P. unfold clampR. destruct (Rle_dec (3 * PI) x) as [H|H].
  - rewrite Rmax_left by exact H. destruct (Rle_dec x (4 * PI)) as [G|G]; [rewrite Rmin_left by exact G; ring|]. rewrite Rmin_right by lra. rewrite sin_4PI. ring.
  - rewrite Rmax_right by lra. rewrite Rmin_left by lra. rewrite sin_3PI. ring.
Qed.
Lemma clamp_abs a b x : clampR a b x = ((x + a + Rabs (x - a)) / 2 + b - Rabs ((x + a + Rabs (x - a)) / 2 - b)) / 2.
Proof. unfold clampR, Rmin, Rmax. repeat destruct Rle_dec; unfold Rabs; repeat destruct Rcase_abs; lra. Qed.
Lemma clamp_cont a b x : continuous (clampR a b) x.
Proof.
  apply (continuous_ext (fun x => ((x + a + Rabs (x - a)) / 2 + b - Rabs ((x + a + Rabs (x - a)) / 2 - b)) / 2)); [intro; symmetry; apply clamp_abs|].
  apply continuity_pt_filterlim. intros eps Heps. exists eps. split; [exact Heps|]. intros y [_ Hy]. unfold dist in *. simpl in *. unfold R_dist in *.
  unfold Rabs in *; repeat destruct Rcase_abs; lra.
Qed.
Lemma force_cont x : continuous (@euler_force R R_ops R_eops) x.
Proof.
  apply (continuous_ext (fun x => 1 / 4 * (sin (clampR (3 * PI) (4 * PI) x) * sin (clampR (3 * PI) (4 * PI) x)))); [intro; symmetry; apply force_clamp|].
  assert (S : continuous (fun x => sin (clampR (3 * PI) (4 * PI) x)) x) by (apply continuous_comp; [apply clamp_cont|apply continuous_sin]).
  apply (continuous_mult (fun _ => 1 / 4)); [apply continuous_const|]. now apply (continuous_mult (fun x => sin (clampR (3 * PI) (4 * PI) x))).
Qed.
Lemma force_off x : x < 3 * PI \/ 4 * PI < x -> @euler_force R R_ops R_eops x = 0.
Proof. intro H. rewrite force_R. pose proof PI_RGT_0. destruct (Rle_dec (3 * PI) x); [|reflexivity]. destruct (Rle_dec x (4 * PI)); [lra|reflexivity]. Qed.

(** Jacobians. *)
Definition eu_comp (p : euler R) (x a b c : R) (i : nat) : R :=
  nth i [((eu_i2 p - eu_i3 p) / eu_i1 p) * (b * c); ((eu_i3 p - eu_i1 p) / eu_i2 p) * (c * a); ((eu_i1 p - eu_i2 p) / eu_i3 p) * (a * b) + @euler_force R R_ops R_eops x] 0.
Lemma col3_is (T : Type) (a b c d : T) : is_col (col3 a b c) 3 (fun i => nth i [a; b; c] d).
Proof. apply is_mat_intro; auto. intros i j Hi Hj. assert (j = 0)%nat by lia. subst j. apply vget_ok. simpl. lia. Qed.
Lemma col2_is (T : Type) (a b d : T) : is_col (col2 a b) 2 (fun i => nth i [a; b] d).
Proof. apply is_mat_intro; auto. intros i j Hi Hj. assert (j = 0)%nat by lia. subst j. apply vget_ok. simpl. lia. Qed.
Lemma euler_jac_ok (p : euler R) (x : R) :
  exists F, (forall a b c, exists w, euler_func_implicit p x (col3 a b c) = Ret w /\ is_col w 3 (F a b c)) /\
  forall a b c, exists J j, euler_jacobian p x (col3 a b c) = Ret J /\ is_mat J 3 3 j /\
    forall i, (i < 3)%nat -> is_derive (fun t => F t b c i) a (j i 0%nat) /\ is_derive (fun t => F a t c i) b (j i 1%nat) /\ is_derive (fun t => F a b t i) c (j i 2%nat).
Proof.
  exists (eu_comp p x). split.
  - intros a b c. eexists. split; [rewrite <- euler_same; apply euler_func_col|]. apply col3_is.
  - intros a b c. eexists _, _. split; [apply euler_jac_col|]. split.
    + apply is_mat_intro; [reflexivity|reflexivity|reflexivity|]. intros i j Hi Hj. apply (vget_ok _ _ 0). simpl. lia.
    + unfold eu_comp. intros [|[|[|i]]] Hi; cbn -[euler_force]; try lia; unfold mul, add, sub, div, zero, R_ops; (split; [|split]); (auto_derive; [exact I|ring]).
Qed.
Definition vdp_comp (p : vanderpol R) (a b : R) (i : nat) : R := nth i [b; vdp_eps p * (1 - a * a) * b - a] 0.
Lemma vdp_jac_ok (p : vanderpol R) (x : R) :
  exists F, (forall a b, exists w, vdp_func p x (col2 a b) = Ret w /\ is_col w 2 (F a b)) /\
  forall a b, exists J j, vdp_jacobian p x (col2 a b) = Ret J /\ is_mat J 2 2 j /\
    forall i, (i < 2)%nat -> is_derive (fun t => F t b i) a (j i 0%nat) /\ is_derive (fun t => F a t i) b (j i 1%nat).
Proof.
  exists (vdp_comp p). split.
  - intros a b. eexists. split; [apply vdp_func_col|]. apply col2_is.
  - intros a b. eexists _, _. split; [apply vdp_jac_col|]. split.
    + apply is_mat_intro; [reflexivity|reflexivity|reflexivity|]. intros i j Hi Hj. apply (vget_ok _ _ 0). simpl. lia.
    + unfold vdp_comp. assert (L : lit 2 1 = 2) by apply litR1.
      intros [|[|i]] Hi; cbn -[lit]; try lia; try rewrite L; unfold mul, add, sub, div, zero, one, neg, R_ops; split; (auto_derive; [exact I|ring]).
Qed.

(** Quantities along solutions. *)
Lemma euler_solution_inv p y1 y2 y3 x : solves3 (@euler_func R R_ops R_eops p) y1 y2 y3 x ->
  is_derive y1 x ((eu_i2 p - eu_i3 p) / eu_i1 p * (y2 x * y3 x)) /\ is_derive y2 x ((eu_i3 p - eu_i1 p) / eu_i2 p * (y3 x * y1 x)) /\
  is_derive y3 x ((eu_i1 p - eu_i2 p) / eu_i3 p * (y1 x * y2 x) + @euler_force R R_ops R_eops x).
Proof.
  intros (d1 & d2 & d3 & E & D). rewrite euler_func_col in E. injection E as <- <- <-. exact D.
Qed.
Lemma euler_balance p y1 y2 y3 x : eu_i1 p <> 0 -> eu_i2 p <> 0 -> eu_i3 p <> 0 -> solves3 (@euler_func R R_ops R_eops p) y1 y2 y3 x ->
  is_derive (fun x => eu_i1 p * (y1 x)^2 + eu_i2 p * (y2 x)^2 + eu_i3 p * (y3 x)^2) x (2 * eu_i3 p * y3 x * @euler_force R R_ops R_eops x) /\
  is_derive (fun x => (eu_i1 p * y1 x)^2 + (eu_i2 p * y2 x)^2 + (eu_i3 p * y3 x)^2) x (2 * (eu_i3 p)^2 * y3 x * @euler_force R R_ops R_eops x).
Proof.
  intros H1 H2 H3 S. destruct (euler_solution_inv _ _ _ _ _ S) as (D1 & D2 & D3). pose proof (is_derive_unique _ _ _ D1) as E1. pose proof (is_derive_unique _ _ _ D2) as E2. pose proof (is_derive_unique _ _ _ D3) as E3.
  split; (auto_derive; [repeat split; eexists; eassumption|]); change (fun x0 : R => y1 x0) with y1; change (fun x0 : R => y2 x0) with y2; change (fun x0 : R => y3 x0) with y3; rewrite E1, E2, E3; field; auto.
Qed.
Lemma zero_derive_const (f : R -> R) a b : a <= b -> (forall x, a <= x <= b -> is_derive f x 0) -> f b = f a.
Proof.
  intros H D. destruct (Req_dec a b) as [->|N]; [reflexivity|]. destruct (MVT_gen f a b (fun _ => 0)) as (c & _ & E).
  - intros x Hx. apply D. rewrite Rmin_left, Rmax_right in Hx by lra. lra.
  - intros x Hx. rewrite Rmin_left, Rmax_right in Hx by lra. apply continuity_pt_filterlim. apply (ex_derive_continuous f). eexists. apply D. lra.
  - lra.
Qed.
Lemma euler_conserved p y1 y2 y3 a b : eu_i1 p <> 0 -> eu_i2 p <> 0 -> eu_i3 p <> 0 -> a <= b -> (b < 3 * PI \/ 4 * PI < a) ->
  (forall x, a <= x <= b -> solves3 (@euler_func R R_ops R_eops p) y1 y2 y3 x) ->
  eu_i1 p * (y1 b)^2 + eu_i2 p * (y2 b)^2 + eu_i3 p * (y3 b)^2 = eu_i1 p * (y1 a)^2 + eu_i2 p * (y2 a)^2 + eu_i3 p * (y3 a)^2 /\
  (eu_i1 p * y1 b)^2 + (eu_i2 p * y2 b)^2 + (eu_i3 p * y3 b)^2 = (eu_i1 p * y1 a)^2 + (eu_i2 p * y2 a)^2 + (eu_i3 p * y3 a)^2.
Proof.
  intros H1 H2 H3 Hab Hf S. split.
  - apply (zero_derive_const (fun x => eu_i1 p * (y1 x)^2 + eu_i2 p * (y2 x)^2 + eu_i3 p * (y3 x)^2) a b Hab). intros x Hx.
    destruct (euler_balance p y1 y2 y3 x H1 H2 H3 (S x Hx)) as [D _]. rewrite force_off in D by lra. now rewrite Rmult_0_r in D.
  - apply (zero_derive_const (fun x => (eu_i1 p * y1 x)^2 + (eu_i2 p * y2 x)^2 + (eu_i3 p * y3 x)^2) a b Hab). intros x Hx.
    destruct (euler_balance p y1 y2 y3 x H1 H2 H3 (S x Hx)) as [_ D]. rewrite force_off in D by lra. now rewrite Rmult_0_r in D.
Qed.
Lemma vdp_balance p y1 y2 x : solves2 (@vdp_func R R_ops p) y1 y2 x ->
  is_derive (fun x => (y1 x)^2 + (y2 x)^2) x (2 * vdp_eps p * (1 - (y1 x)^2) * (y2 x)^2).
Proof.
  intros (d1 & d2 & E & D1 & D2). rewrite vdp_func_col in E. injection E as <- <-. unfold mul, sub, one, R_ops in D2. pose proof (is_derive_unique _ _ _ D1) as E1. pose proof (is_derive_unique _ _ _ D2) as E2.
  auto_derive; [repeat split; eexists; eassumption|]. change (fun x0 : R => y1 x0) with y1; change (fun x0 : R => y2 x0) with y2; rewrite E1, E2. ring.
Qed.
Lemma vdp_doc p t a b : forall w, vdp_func p t (col2 a b) = Ret w -> (w = col2 b (vdp_eps p * ((1 - a^2) * b - a)) <-> a = 0 \/ vdp_eps p = 1).
Proof.
  intros w E. rewrite vdp_func_col in E. injection E as <-. unfold mul, sub, one, R_ops. split.
  - intro H. injection H as H. assert (K : (vdp_eps p - 1) * a = 0) by lra. apply Rmult_integral in K. lra.
  - intros [->| ->]; unfold col2; do 3 f_equal; ring.
Qed.
Lemma force_on x : 3 * PI <= x <= 4 * PI -> @euler_force R R_ops R_eops x = (sin x)^2 / 4.
Proof. intro H. rewrite force_R. destruct (Rle_dec (3 * PI) x); [|lra]. destruct (Rle_dec x (4 * PI)); [|lra]. field. Qed.
Lemma euler_continuous (p : euler R) a b c : exists F,
  (forall x, exists w, euler_func p x (col3 a b c) = Ret w /\ is_col w 3 (F x)) /\ forall i x, (i < 3)%nat -> continuous (fun x => F x i) x.
Proof.
  exists (fun x => eu_comp p x a b c). split; [intro x; eexists; split; [apply euler_func_col|apply col3_is]|].
  unfold eu_comp. intros [|[|[|i]]] x Hi; cbn [nth]; [apply continuous_const|apply continuous_const| |lia].
  apply (continuous_plus (fun _ => (eu_i1 p - eu_i2 p) / eu_i3 p * (a * b))); [apply continuous_const|apply force_cont].
Qed.
Lemma defaults_ok : exists p q, @euler_default R R_ops = Ret p /\ eu_i1 p = 1 / 2 /\ eu_i2 p = 2 /\ eu_i3 p = 3 /\
    euler_time_span p = (0, 20) /\ euler_init_cond p = col3 1 0 (9 / 10) /\
  @vdp_default R R_ops = Ret q /\ vdp_eps q = 1 / 10 /\ vdp_time_span q = (0, 30) /\ vdp_init_cond q = col2 1 0.
Proof.
  assert (L : lit 1 2 = 1 / 2 /\ lit 9 10 = 9 / 10 /\ lit 1 10 = 1 / 10) by (unfold lit; cbn; lra). destruct L as (L1 & L2 & L3).
  eexists _, _. split; [reflexivity|]. cbn [eu_i1 eu_i2 eu_i3 euler_time_span euler_init_cond eu_span eu_init].
  split; [exact L1|]. split; [apply litR1|]. split; [apply litR1|]. split; [f_equal; apply litR1|]. split; [unfold col3; rewrite <- L2; do 2 f_equal; [apply litR1|f_equal; apply litR1]|].
  split; [reflexivity|]. cbn [vdp_eps vdp_time_span vdp_init_cond vdp_span vdp_init]. split; [exact L3|]. split; [f_equal; apply litR1|]. unfold col2. do 2 f_equal; [apply litR1|f_equal; apply litR1].
Qed.
Lemma vdp_doc_refuted : exists p a b, @vdp_default R R_ops = Ret p /\ vdp_init_cond p = col2 a b /\
  vdp_func p 0 (col2 a b) <> Ret (col2 b (vdp_eps p * ((1 - a^2) * b - a))).
Proof.
  destruct defaults_ok as (_ & q & _ & _ & _ & _ & _ & _ & E & E1 & _ & E2). exists q, 1, 0. split; [exact E|]. split; [exact E2|]. intro H.
  destruct (proj1 (vdp_doc q 0 1 0 _ H) eq_refl) as [K|K]; [lra|]. rewrite E1 in K. lra.
Qed.
Lemma short_panics {T} {O : Ops T} {E : EOps T} (y : vector T) n f : is_col y n f ->
  (forall (p : euler T) x, (n < 3)%nat -> euler_func p x y = Panic /\ euler_jacobian p x y = Panic) /\
  (forall (p : vanderpol T) x, (n < 2)%nat -> vdp_func p x y = Panic /\ vdp_jacobian p x y = Panic).
Proof.
  intro H.
  assert (G : forall i, (n <= i)%nat -> vvget y i = Panic) by (intros i Hi; exact (col_get_panic _ _ _ _ H Hi)).
  split; intros p x Hn.
  - unfold euler_func, euler_jacobian. rewrite (G 2%nat) by lia. split; [|reflexivity]. destruct (vvget y 1%nat); reflexivity.
  - unfold vdp_func, vdp_jacobian. rewrite (G 1%nat) by lia. split; destruct (vvget y 0%nat); reflexivity.
Qed.
