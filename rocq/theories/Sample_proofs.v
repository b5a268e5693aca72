(** Sample statistics and hypothesis tests over exact reals. *)
From Coq Require Import Arith Lia List Bool ZArith Reals Lra Permutation.
From Coquelicot Require Import Coquelicot.
From Verif Require Import Outcome Scalar RealOps Elem_model Int_model Ode_model Special_model Stat_model.
From Verif Require Import Stat_spec Discrete_proofs OdeOrder_proofs Continuous_proofs Normal_proofs.
Import ListNotations.
Local Open Scope R_scope.

Lemma of_u_R n : of_u n = INR n.
Proof. unfold of_u. cbn [of_int R_zops]. symmetry. apply INR_IZR_INZ. Qed.

(** ** Sums *)
Lemma fold_add_sum l : forall a, fold_left add l a = a + sumR l.
Proof.
  induction l as [|x l IH]; intros a; cbn [fold_left sumR fold_right]; [ring|].
  rewrite IH. rops. unfold sumR. ring.
Qed.
Lemma fold_add_sum0 l : fold_left add l zero = sumR l.
Proof. rewrite fold_add_sum. rops. ring. Qed.
Lemma fold_map_sum (f : R -> R) l : forall a, fold_left (fun s x => s + f x) l a = a + sumR (map f l).
Proof.
  induction l as [|x l IH]; intros a; cbn [fold_left sumR map fold_right]; [ring|].
  rewrite IH. unfold sumR. ring.
Qed.
Lemma sumR_cons x l : sumR (x :: l) = x + sumR l. Proof. reflexivity. Qed.
Lemma sumR_map_plus {A} (f g : A -> R) l : sumR (map (fun x => f x + g x) l) = sumR (map f l) + sumR (map g l).
Proof. induction l as [|x l IH]; cbn [map]; rewrite ?sumR_cons, ?IH; [cbn|]; ring. Qed.
Lemma sumR_map_scal {A} c (f : A -> R) l : sumR (map (fun x => c * f x) l) = c * sumR (map f l).
Proof. induction l as [|x l IH]; cbn [map]; rewrite ?sumR_cons, ?IH; [cbn|]; ring. Qed.
Lemma sumR_map_const {A} c (l : list A) : sumR (map (fun _ => c) l) = INR (length l) * c.
Proof. induction l as [|x l IH]; cbn [map length]; rewrite ?sumR_cons, ?IH, ?S_INR; [cbn|]; ring. Qed.
Lemma sumR_ext {A} (f g : A -> R) l : (forall x, In x l -> f x = g x) -> sumR (map f l) = sumR (map g l).
Proof. intros H. f_equal. apply map_ext_in. assumption. Qed.
Lemma sumR_nonneg {A} (f : A -> R) l : (forall x, In x l -> 0 <= f x) -> 0 <= sumR (map f l).
Proof.
  induction l as [|x l IH]; intros H; cbn [map]; [cbn; lra|]. rewrite sumR_cons.
  pose proof (H x (or_introl eq_refl)). assert (0 <= sumR (map f l)) by (apply IH; intros; apply H; right; assumption). lra.
Qed.
Lemma sumR_zero {A} (f : A -> R) l : (forall x, In x l -> 0 <= f x) -> sumR (map f l) = 0 ->
  forall x, In x l -> f x = 0.
Proof.
  induction l as [|y l IH]; intros H E x Hx; [destruct Hx|]. cbn [map] in E. rewrite sumR_cons in E.
  assert (P : 0 <= sumR (map f l)) by (apply sumR_nonneg; intros; apply H; right; assumption).
  pose proof (H y (or_introl eq_refl)). destruct Hx as [<-|Hx]; [lra|].
  apply IH; [intros; apply H; right; assumption|lra|assumption].
Qed.
Lemma sumR_perm l l' : Permutation l l' -> sumR l = sumR l'.
Proof. induction 1; rewrite ?sumR_cons; cbn; try rewrite IHPermutation; try lra; try (unfold sumR in *; lra). Qed.
Lemma sumR_map_id l : sumR (map (fun x => x) l) = sumR l.
Proof. rewrite map_id. reflexivity. Qed.

Lemma sumR_sq_shift c l :
  sumR (map (fun x => (x - c) * (x - c)) l)
  = sumR (map (fun x => x * x) l) - 2 * c * sumR l + INR (length l) * (c * c).
Proof.
  rewrite (sumR_ext (fun x => (x - c) * (x - c)) (fun x => (x * x + (- (2 * c)) * x) + c * c)) by (intros; ring).
  rewrite sumR_map_plus, sumR_map_const, sumR_map_plus.
  rewrite (sumR_map_scal (- (2 * c)) (fun x => x)), sumR_map_id. ring.
Qed.

(** ** Mean and variance of data *)
Lemma calc_mean_avg l : calc_mean l = avg l.
Proof. unfold calc_mean, avg. rewrite fold_add_sum0, of_u_R. reflexivity. Qed.
Lemma calc_variance_sample l : (1 <= length l)%nat -> calc_variance l (avg l) = sample_variance l.
Proof.
  intros H. unfold calc_variance, sample_variance. rewrite of_u_R, minus_INR by assumption.
  replace (INR 1) with 1 by reflexivity. rops. unfold Rdiv. f_equal.
  rewrite lit_2. rewrite (fold_map_sum (fun x => R_pow (x - avg l) 2)). rewrite Rplus_0_l.
  apply sumR_ext. intros x _. apply R_pow_2.
Qed.
Lemma len_pos l : (2 <= length l)%nat -> 0 < INR (length l) - 1 /\ 0 < INR (length (A := R) l).
Proof. intros H. apply le_INR in H. cbn [INR] in H. lra. Qed.

Lemma sample_pair l : (2 <= length l)%nat -> sample_variance l = pair_variance l.
Proof.
  intros H. destruct (len_pos l H) as [P1 P2]. unfold sample_variance, pair_variance. rewrite sumR_sq_shift.
  rewrite (sumR_ext (fun x => sumR (map (fun y => (x - y) * (x - y)) l))
    (fun x => (INR (length l) * (x * x) + (- (2 * sumR l)) * x) + sumR (map (fun y => y * y) l))).
  - rewrite sumR_map_plus, sumR_map_const, sumR_map_plus.
    rewrite (sumR_map_scal (INR (length l)) (fun x => x * x)), (sumR_map_scal (- (2 * sumR l)) (fun x => x)), sumR_map_id.
    unfold avg. field. lra.
  - intros x _. rewrite (sumR_ext (fun y => (x - y) * (x - y)) (fun y => (y - x) * (y - x))) by (intros; ring).
    rewrite sumR_sq_shift. ring.
Qed.
Lemma sample_variance_nonneg l : (2 <= length l)%nat -> 0 <= sample_variance l.
Proof.
  intros H. destruct (len_pos l H) as [P1 P2]. unfold sample_variance.
  apply Rmult_le_pos; [|left; apply Rinv_0_lt_compat; assumption].
  apply sumR_nonneg. intros x _. apply Rle_0_sqr.
Qed.
Lemma sample_variance_zero l : (2 <= length l)%nat -> (sample_variance l = 0 <-> constant l).
Proof.
  intros H. destruct (len_pos l H) as [P1 P2]. split.
  - intros E. assert (D : forall x, In x l -> x = avg l).
    { unfold sample_variance in E. unfold Rdiv in E. apply Rmult_integral in E.
      destruct E as [E|E]; [|exfalso; apply (Rinv_neq_0_compat (INR (length l) - 1)); lra].
      intros x Hx.
      pose proof (sumR_zero (fun x => (x - avg l) * (x - avg l)) l (fun x _ => Rle_0_sqr (x - avg l)) E x Hx) as Z.
      cbv beta in Z. apply Rmult_integral in Z. lra. }
    intros x y Hx Hy. rewrite (D x Hx), (D y Hy). reflexivity.
  - intros C. destruct l as [|a l]; [cbn in H; lia|].
    rewrite sample_pair by assumption. unfold pair_variance.
    rewrite (sumR_ext _ (fun _ => 0)).
    + rewrite sumR_map_const. unfold Rdiv. ring.
    + intros x Hx. rewrite (sumR_ext _ (fun _ => 0)).
      * rewrite sumR_map_const. ring.
      * intros y Hy. rewrite (C x y Hx Hy). ring.
Qed.

Lemma normal_from_data_ok l : (2 <= length l)%nat -> ~ constant l ->
  normal_from_data l = Ret (mkNormal (avg l) (sample_variance l)).
Proof.
  intros H C. unfold normal_from_data. destruct (Nat.ltb_spec (length l) 2); [lia|].
  rewrite calc_mean_avg, calc_variance_sample by lia. apply normal_new_iff.
  pose proof (sample_variance_nonneg l H). pose proof (sample_variance_zero l H) as [Z _].
  destruct (Req_dec (sample_variance l) 0) as [E|]; [exfalso; apply C, Z, E|lra].
Qed.
Lemma normal_from_data_panic l : (length l < 2)%nat \/ constant l -> normal_from_data l = Panic.
Proof.
  intros H. unfold normal_from_data. destruct (Nat.ltb_spec (length l) 2); [reflexivity|].
  destruct H as [H|C]; [lia|]. rewrite calc_mean_avg, calc_variance_sample by lia. apply normal_new_panic.
  pose proof (sample_variance_zero l ltac:(lia)) as [_ Z]. rewrite (Z C). lra.
Qed.
Lemma normal_from_data_ret l d : normal_from_data l = Ret d ->
  (2 <= length l)%nat /\ ~ constant l /\ d = mkNormal (avg l) (sample_variance l).
Proof.
  intros E. assert (L : (2 <= length l)%nat).
  { destruct (le_lt_dec 2 (length l)); [assumption|]. rewrite normal_from_data_panic in E by (left; lia). discriminate. }
  assert (C : ~ constant l).
  { intros C. rewrite normal_from_data_panic in E by (right; assumption). discriminate. }
  split; [assumption|]. split; [assumption|]. rewrite normal_from_data_ok in E by assumption. congruence.
Qed.

Lemma sumR_map_add c l : sumR (map (fun x => x + c) l) = sumR l + INR (length l) * c.
Proof. rewrite (sumR_map_plus (fun x => x) (fun _ => c)), sumR_map_id, sumR_map_const. reflexivity. Qed.
Lemma avg_shift c l : (1 <= length l)%nat -> avg (map (fun x => x + c) l) = avg l + c.
Proof.
  intros H. unfold avg. rewrite map_length, sumR_map_add.
  apply le_INR in H. cbn [INR] in H. field. lra.
Qed.
Lemma avg_scale c l : avg (map (fun x => c * x) l) = c * avg l.
Proof.
  unfold avg. rewrite map_length. rewrite (sumR_map_scal c (fun x => x)), sumR_map_id. unfold Rdiv. ring.
Qed.
Lemma sample_variance_shift c l : (1 <= length l)%nat -> sample_variance (map (fun x => x + c) l) = sample_variance l.
Proof.
  intros H. unfold sample_variance. rewrite map_length, avg_shift, map_map by assumption. f_equal.
  apply sumR_ext. intros x _. ring.
Qed.
Lemma sample_variance_scale c l : sample_variance (map (fun x => c * x) l) = c * c * sample_variance l.
Proof.
  unfold sample_variance. rewrite map_length, avg_scale, map_map.
  rewrite (sumR_ext _ (fun x => (c * c) * ((x - avg l) * (x - avg l)))) by (intros; ring).
  rewrite sumR_map_scal. unfold Rdiv. ring.
Qed.
Lemma avg_perm l l' : Permutation l l' -> avg l = avg l'.
Proof. intros H. unfold avg. rewrite (sumR_perm _ _ H), (Permutation_length H). reflexivity. Qed.
Lemma sample_variance_perm l l' : Permutation l l' -> sample_variance l = sample_variance l'.
Proof.
  intros H. unfold sample_variance. rewrite (avg_perm _ _ H), (Permutation_length H). f_equal.
  apply sumR_perm, Permutation_map, H.
Qed.
Lemma constant_perm l l' : Permutation l l' -> constant l -> constant l'.
Proof. intros H C x y Hx Hy. apply C; (eapply Permutation_in; [apply Permutation_sym; exact H|assumption]). Qed.
Lemma normal_from_data_perm l l' : Permutation l l' -> normal_from_data l = normal_from_data l'.
Proof.
  intros H. destruct (normal_from_data l) as [d|] eqn:E.
  - apply normal_from_data_ret in E as [L [C ->]]. symmetry. rewrite normal_from_data_ok.
    + rewrite (avg_perm _ _ H), (sample_variance_perm _ _ H). reflexivity.
    + rewrite <- (Permutation_length H). assumption.
    + intros C'. apply C. apply (constant_perm l' l); [apply Permutation_sym; assumption|assumption].
  - destruct (normal_from_data l') as [d|] eqn:E'; [|reflexivity].
    apply normal_from_data_ret in E' as [L [C ->]]. rewrite normal_from_data_ok in E; [discriminate| |].
    + rewrite (Permutation_length H). assumption.
    + intros C'. apply C. apply (constant_perm l l'); assumption.
Qed.

(** ** Student's tests *)
Lemma t_one_sample_ok l mu : (2 <= length l)%nat -> ~ constant l ->
  t_one_sample l mu = Ret (mkTTest 0 (sqrt (INR (length l)) * (avg l - mu) / sqrt (sample_variance l))).
Proof.
  intros H C. unfold t_one_sample. rewrite normal_from_data_ok by assumption. cbn [bind].
  rewrite of_u_R. reflexivity.
Qed.
Lemma t_one_sample_panic l mu : (length l < 2)%nat \/ constant l -> t_one_sample l mu = Panic.
Proof. intros H. unfold t_one_sample. rewrite normal_from_data_panic by assumption. reflexivity. Qed.
Lemma t_equal_ok x y : (2 <= length x)%nat -> (2 <= length y)%nat -> ~ constant x -> ~ constant y ->
  t_equal_variance x y = Ret (mkTTest 0
    ((avg x - avg y)
     / (sqrt (((INR (length x) - 1) * sample_variance x + (INR (length y) - 1) * sample_variance y)
              / (INR (length x) + INR (length y) - 2))
        * sqrt (1 / INR (length x) + 1 / INR (length y))))).
Proof.
  intros Hx Hy Cx Cy. unfold t_equal_variance. rewrite !normal_from_data_ok by assumption. cbn [bind].
  rewrite usub_ok by lia. cbn [bind]. rewrite !of_u_R, !minus_INR, plus_INR by lia.
  cbn [normal_variance normal_mean no_var no_mean INR]. rops. replace (1 + 1) with 2 by ring. reflexivity.
Qed.

Section Welch.
Context {Sp : Special R}.
Lemma welch_df_pos x y : (2 <= length x)%nat -> (2 <= length y)%nat -> ~ constant x -> ~ constant y ->
  0 < welch_df x y.
Proof.
  intros Hx Hy Cx Cy. destruct (len_pos x Hx) as [X1 X2]. destruct (len_pos y Hy) as [Y1 Y2].
  assert (Vx : 0 < sample_variance x).
  { pose proof (sample_variance_nonneg x Hx). pose proof (sample_variance_zero x Hx) as [Z _].
    destruct (Req_dec (sample_variance x) 0) as [E|]; [exfalso; apply Cx, Z, E|lra]. }
  assert (Vy : 0 < sample_variance y).
  { pose proof (sample_variance_nonneg y Hy). pose proof (sample_variance_zero y Hy) as [Z _].
    destruct (Req_dec (sample_variance y) 0) as [E|]; [exfalso; apply Cy, Z, E|lra]. }
  unfold welch_df. set (a := _ / INR (length x)). set (b := sample_variance y / INR (length y)).
  assert (0 < a) by (apply Rdiv_lt_0_compat; assumption). assert (0 < b) by (apply Rdiv_lt_0_compat; assumption).
  apply Rdiv_lt_0_compat; [apply Rmult_lt_0_compat; lra|].
  apply Rplus_lt_0_compat; apply Rdiv_lt_0_compat; try assumption; apply Rmult_lt_0_compat; assumption.
Qed.
Lemma t_unequal_ok x y : (2 <= length x)%nat -> (2 <= length y)%nat -> ~ constant x -> ~ constant y ->
  t_unequal_variance x y =
  let! c := td_cdf (mkT (welch_df x y)) (- Rabs (welch_t x y)) in
  Ret (mkTTest (2 * c) (welch_t x y)).
Proof.
  intros Hx Hy Cx Cy. pose proof (welch_df_pos x y Hx Hy Cx Cy) as DP.
  unfold t_unequal_variance. rewrite !normal_from_data_ok by assumption. cbn [bind].
  rewrite !of_u_R. cbn [normal_variance normal_mean no_var no_mean].
  replace (INR (length x * length x * (length x - 1))) with (INR (length x) * INR (length x) * (INR (length x) - 1))
    by (rewrite !mult_INR, minus_INR by lia; reflexivity).
  replace (INR (length y * length y * (length y - 1))) with (INR (length y) * INR (length y) * (INR (length y) - 1))
    by (rewrite !mult_INR, minus_INR by lia; reflexivity).
  rops. destruct (len_pos x Hx) as [X1 X2]. destruct (len_pos y Hy) as [Y1 Y2].
  fold (welch_t x y).
  match goal with |- context [td_new ?e] => replace e with (welch_df x y) end.
  - unfold td_new. rb. rops. rcase; [lra|]. cbn [bind]. rewrite lit_2. reflexivity.
  - unfold welch_df. do 2 f_equal; field; lra.
Qed.
Lemma welch_t_swap x y : welch_t y x = - welch_t x y.
Proof. unfold welch_t. rewrite (Rplus_comm (sample_variance y / _)). unfold Rdiv. ring. Qed.
Lemma welch_df_swap x y : welch_df y x = welch_df x y.
Proof.
  unfold welch_df. rewrite (Rplus_comm (sample_variance y / _)).
  rewrite (Rplus_comm (sample_variance y / _ * _ / _)). reflexivity.
Qed.
End Welch.

(** ** Two-list loops *)
Lemma vget_app_hd {A} (pre : list A) a l : vget (pre ++ a :: l) (length pre) = Ret a.
Proof. unfold vget. rewrite nth_error_app2, Nat.sub_diag by lia. reflexivity. Qed.
Lemma two_list_loop (f : R -> R -> R) (body : nat -> R -> outcome R) x y c0 :
  length x = length y ->
  (forall i a b c, vget x i = Ret a -> vget y i = Ret b -> body i c = Ret (c + f a b)) ->
  for_loop 0 (length x) body c0 = Ret (c0 + sumR (map (fun p => let '(a, b) := p in f a b) (combine x y))).
Proof.
  intros L B.
  assert (G : forall x2 y2 x1 y1 c, x = x1 ++ x2 -> y = y1 ++ y2 -> length x1 = length y1 -> length x2 = length y2 ->
    for_loop (length x1) (length x) body c
    = Ret (c + sumR (map (fun p => let '(a, b) := p in f a b) (combine x2 y2)))).
  { induction x2 as [|a x2 IH]; intros y2 x1 y1 c Ex Ey L1 L2.
    - rewrite Ex, app_nil_r, for_loop_nil by lia. cbn. f_equal. ring.
    - destruct y2 as [|b y2]; [discriminate|]. rewrite for_loop_step by (rewrite Ex, app_length; cbn; lia).
      rewrite (B (length x1) a b).
      + cbn [bind]. replace (S (length x1)) with (length (x1 ++ [a])) by (rewrite app_length; cbn; lia).
        rewrite (IH y2 (x1 ++ [a]) (y1 ++ [b])).
        * cbn [combine map]. rewrite sumR_cons. f_equal. ring.
        * rewrite Ex, <- app_assoc. reflexivity.
        * rewrite Ey, <- app_assoc. reflexivity.
        * rewrite !app_length. cbn. lia.
        * cbn in L2. lia.
      + rewrite Ex. apply vget_app_hd.
      + rewrite Ey, L1. apply vget_app_hd. }
  apply (G x y [] [] c0); auto.
Qed.

Lemma chi_test_ok x y : length x = length y -> (1 <= length x)%nat ->
  chi_test_vector x y = Ret (mkChiTest (length x - 1) (pearson x y)).
Proof.
  intros L H. unfold chi_test_vector. rewrite L, Nat.eqb_refl. cbn [negb].
  rewrite usub_ok by lia. cbn [bind]. rewrite <- L. rewrite !fold_add_sum0.
  set (X := sumR x). set (Y := sumR y).
  rewrite (two_list_loop (fun a b => chi_test_cell (X + Y) a X (a + b) + chi_test_cell (X + Y) b Y (a + b)) _ x y).
  - cbn [bind]. f_equal. f_equal. rops. rewrite Rplus_0_l. unfold pearson. fold X Y.
    apply sumR_ext. intros [a b] _. unfold chi_test_cell. rewrite lit_2. rops. rewrite !R_pow_2. reflexivity.
  - assumption.
  - intros i a b c Ea Eb. rewrite Ea, Eb. cbn [bind]. f_equal. rops. ring.
Qed.
Lemma chi_test_panic x y : length x <> length y \/ length x = 0%nat -> chi_test_vector x y = Panic.
Proof.
  intros H. unfold chi_test_vector. destruct (Nat.eqb_spec (length x) (length y)) as [E|]; [|reflexivity].
  cbn [negb]. destruct H as [H|H]; [contradiction|]. unfold usub. rewrite <- E, H. reflexivity.
Qed.

Lemma pearson_cell X Y a b : X <> 0 -> Y <> 0 -> X + Y <> 0 -> a + b <> 0 ->
  (a - X * (a + b) / (X + Y)) * (a - X * (a + b) / (X + Y)) / (X * (a + b) / (X + Y))
  + (b - Y * (a + b) / (X + Y)) * (b - Y * (a + b) / (X + Y)) / (Y * (a + b) / (X + Y))
  = (X * b - Y * a) * (X * b - Y * a) / (X * Y * (a + b)).
Proof. intros. field. repeat split; assumption. Qed.
Lemma pearson_closed x y : 0 < sumR x -> 0 < sumR y ->
  (forall a b, In (a, b) (combine x y) -> 0 < a + b) ->
  pearson x y = sumR (map (fun p => let '(a, b) := p in
    (sumR x * b - sumR y * a) * (sumR x * b - sumR y * a) / (sumR x * sumR y * (a + b))) (combine x y)).
Proof.
  intros Hx Hy H. unfold pearson. apply sumR_ext. intros [a b] I. specialize (H a b I).
  apply pearson_cell; lra.
Qed.
Lemma proportional_iff x y : length x = length y -> 0 < sumR x ->
  ((forall a b, In (a, b) (combine x y) -> sumR x * b - sumR y * a = 0) <-> proportional x y).
Proof.
  intros L H. split.
  - intros P. exists (sumR y / sumR x).
    assert (Q : forall a b, In (a, b) (combine x y) -> b = sumR y / sumR x * a).
    { intros a b I. specialize (P a b I). apply Rmult_eq_reg_l with (sumR x); [|lra]. field_simplify; lra. }
    revert Q. generalize (sumR y / sumR x) as c. clear P H. revert y L.
    induction x as [|a x IH]; intros [|b y] L c Q; try discriminate; [reflexivity|].
    cbn [map]. f_equal; [apply Q; left; reflexivity|]. apply IH; [cbn in L; lia|].
    intros a' b' I. apply Q. right. assumption.
  - intros [c E]. rewrite E in *. intros a b I.
    assert (b = c * a).
    { clear -I. induction x as [|a' x IH]; [destruct I|]. cbn in I. destruct I as [I|I]; [congruence|auto]. }
    subst b. rewrite (sumR_map_scal c (fun x => x)), sumR_map_id. ring.
Qed.
Lemma pearson_nonneg x y : 0 < sumR x -> 0 < sumR y ->
  (forall a b, In (a, b) (combine x y) -> 0 < a + b) -> 0 <= pearson x y.
Proof.
  intros Hx Hy H. rewrite pearson_closed by assumption. apply sumR_nonneg. intros [a b] I.
  specialize (H a b I). apply Rmult_le_pos; [apply Rle_0_sqr|].
  left. apply Rinv_0_lt_compat. apply Rmult_lt_0_compat; [apply Rmult_lt_0_compat; assumption|assumption].
Qed.
Lemma pearson_zero x y : length x = length y -> 0 < sumR x -> 0 < sumR y ->
  (forall a b, In (a, b) (combine x y) -> 0 < a + b) -> (pearson x y = 0 <-> proportional x y).
Proof.
  intros L Hx Hy H. rewrite <- proportional_iff by assumption. rewrite pearson_closed by assumption. split.
  - intros E a b I.
    assert (Z := sumR_zero (fun p => let '(a, b) := p in
      (sumR x * b - sumR y * a) * (sumR x * b - sumR y * a) / (sumR x * sumR y * (a + b))) (combine x y)).
    specialize (Z ltac:(intros [u w] I'; specialize (H u w I'); apply Rmult_le_pos; [apply Rle_0_sqr|];
      left; apply Rinv_0_lt_compat; apply Rmult_lt_0_compat; [apply Rmult_lt_0_compat; assumption|assumption]) E (a, b) I).
    cbn in Z. specialize (H a b I). unfold Rdiv in Z. apply Rmult_integral in Z. destruct Z as [Z|Z].
    + apply Rmult_integral in Z. lra.
    + exfalso. revert Z. apply Rinv_neq_0_compat. assert (0 < sumR x * sumR y * (a + b)); [|lra].
      apply Rmult_lt_0_compat; [apply Rmult_lt_0_compat; assumption|assumption].
  - intros P. rewrite (sumR_ext _ (fun _ => 0)).
    + rewrite sumR_map_const. ring.
    + intros [a b] I. rewrite (P a b I). unfold Rdiv. ring.
Qed.
Lemma pearson_sym x y : length x = length y -> pearson y x = pearson x y.
Proof.
  intros L. unfold pearson. rewrite (Rplus_comm (sumR y) (sumR x)).
  generalize (sumR x) (sumR y). revert y L. induction x as [|a x IH]; intros [|b y] L X Y; try discriminate; [reflexivity|].
  cbn [combine map]. rewrite !sumR_cons. rewrite IH by (cbn in L; lia). f_equal.
  rewrite (Rplus_comm b a). ring.
Qed.

(** ** G test *)
Lemma g_test_ok x y : length x = length y -> (1 <= length x)%nat -> sumR x <> 0 -> sumR y <> 0 ->
  g_test_vector x y = Ret (mkGTest (length x - 1) (g_stat x y)).
Proof.
  intros L H Nx Ny. unfold g_test_vector. rewrite L, Nat.eqb_refl. cbn [negb]. rewrite <- L.
  rewrite usub_ok by lia. cbn [bind]. rewrite !fold_add_sum0.
  rewrite (two_list_loop (fun a b => a * ln (a / (b / (sumR y / sumR x)))) _ x y).
  - cbn [bind]. f_equal. f_equal. rewrite lit_2. rops. unfold g_stat. f_equal. rewrite Rplus_0_l.
    apply sumR_ext. intros [a b] _. do 3 f_equal. field. split; assumption.
  - assumption.
  - intros i a b c Ea Eb. rewrite Ea, Eb. reflexivity.
Qed.
Lemma g_test_panic x y : length x <> length y \/ length x = 0%nat -> g_test_vector x y = Panic.
Proof.
  intros H. unfold g_test_vector. destruct (Nat.eqb_spec (length x) (length y)) as [E|]; [|reflexivity].
  cbn [negb]. destruct H as [H|H]; [contradiction|]. unfold usub. rewrite H. reflexivity.
Qed.

Lemma ln_le_sub1 t : 0 < t -> ln t <= t - 1.
Proof. intros H. pose proof (exp_ineq1_le (ln t)) as I. rewrite exp_ln in I by assumption. lra. Qed.
Lemma ln_eq_sub1 t : 0 < t -> ln t = t - 1 -> t = 1.
Proof.
  intros H E. destruct (Req_dec t 1) as [|N]; [assumption|exfalso].
  assert (NZ : ln t <> 0). { intros Z. apply N. rewrite <- (exp_ln t H), Z. apply exp_0. }
  pose proof (exp_ineq1 (ln t) NZ) as I. rewrite exp_ln in I by assumption. lra.
Qed.
Lemma sum_combine_fst (x y : list R) : length x = length y -> sumR (map (fun p : R * R => let '(a, b) := p in a) (combine x y)) = sumR x.
Proof.
  revert y. induction x as [|a x IH]; intros [|b y] L; try discriminate; [reflexivity|].
  cbn [combine map]. rewrite !sumR_cons, IH by (cbn in L; lia). reflexivity.
Qed.
Lemma sum_combine_snd (x y : list R) : length x = length y -> sumR (map (fun p : R * R => let '(a, b) := p in b) (combine x y)) = sumR y.
Proof.
  revert y. induction x as [|a x IH]; intros [|b y] L; try discriminate; [reflexivity|].
  cbn [combine map]. rewrite !sumR_cons, IH by (cbn in L; lia). reflexivity.
Qed.

Section Gibbs.
Variables x y : list R.
Hypothesis L : length x = length y.
Hypothesis Sx : 0 < sumR x.
Hypothesis Sy : 0 < sumR y.
Hypothesis Pos : forall a b, In (a, b) (combine x y) -> 0 < a /\ 0 < b.
Let e (b : R) := b * sumR x / sumR y.

Lemma gibbs_gap :
  g_stat x y = 2 * sumR (map (fun p : R * R => let '(a, b) := p in a * ((e b / a - 1) - ln (e b / a))) (combine x y)).
Proof.
  unfold g_stat. f_equal. fold e.
  rewrite (sumR_ext (fun p : R * R => let '(a, b) := p in a * (e b / a - 1 - ln (e b / a)))
    (fun p : R * R => (let '(a, b) := p in a * ln (a / e b)) + ((fun p : R * R => (let '(a, b) := p in (sumR x / sumR y) * b)) p + (fun p : R * R => (-1) * (let '(a, b) := p in a)) p))).
  - rewrite sumR_map_plus, sumR_map_plus. rewrite (sumR_map_scal (-1) (fun p : R * R => let '(a, b) := p in a)), sum_combine_fst by assumption.
    rewrite (sumR_ext (fun p : R * R => let '(a, b) := p in sumR x / sumR y * b) (fun p : R * R => sumR x / sumR y * (let '(a, b) := p in b)))
      by (intros [a b] _; reflexivity).
    rewrite (sumR_map_scal (sumR x / sumR y) (fun p : R * R => let '(a, b) := p in b)), sum_combine_snd by assumption.
    unfold e. field. lra.
  - intros [a b] I. destruct (Pos a b I) as [Pa Pb].
    assert (0 < e b) by (apply Rdiv_lt_0_compat; [apply Rmult_lt_0_compat; assumption|assumption]).
    replace (e b / a) with (/ (a / e b)) by (field; split; lra). rewrite ln_Rinv by (apply Rdiv_lt_0_compat; assumption).
    unfold e. field. repeat split; lra.
Qed.
Lemma gap_nonneg p : In p (combine x y) -> 0 <= (let '(a, b) := p in a * ((e b / a - 1) - ln (e b / a))).
Proof.
  destruct p as [a b]. intros I. destruct (Pos a b I) as [Pa Pb].
  assert (0 < e b) by (apply Rdiv_lt_0_compat; [apply Rmult_lt_0_compat; assumption|assumption]).
  pose proof (ln_le_sub1 (e b / a) ltac:(apply Rdiv_lt_0_compat; assumption)).
  apply Rmult_le_pos; lra.
Qed.
Lemma g_stat_nonneg : 0 <= g_stat x y.
Proof. rewrite gibbs_gap. apply Rmult_le_pos; [lra|]. apply sumR_nonneg. apply gap_nonneg. Qed.
Lemma g_stat_zero : g_stat x y = 0 <-> proportional x y.
Proof.
  rewrite <- proportional_iff by assumption. rewrite gibbs_gap. split.
  - intros E a b I. destruct (Pos a b I) as [Pa Pb].
    assert (E' : sumR (map (fun p : R * R => let '(a, b) := p in a * ((e b / a - 1) - ln (e b / a))) (combine x y)) = 0) by lra.
    pose proof (sumR_zero _ _ gap_nonneg E' (a, b) I) as Z. cbv beta iota in Z.
    assert (0 < e b) by (apply Rdiv_lt_0_compat; [apply Rmult_lt_0_compat; assumption|assumption]).
    apply Rmult_integral in Z. destruct Z as [Z|Z]; [lra|].
    assert (T : e b / a = 1) by (apply ln_eq_sub1; [apply Rdiv_lt_0_compat; assumption|lra]).
    apply (f_equal (fun t => t * a * sumR y)) in T. unfold e in T.
    replace (b * sumR x / sumR y / a * a * sumR y) with (b * sumR x) in T by (field; lra). lra.
  - intros P. rewrite (sumR_ext _ (fun _ => 0)).
    + rewrite sumR_map_const. ring.
    + intros [a b] I. destruct (Pos a b I) as [Pa Pb]. specialize (P a b I).
      replace (e b / a) with 1; [rewrite ln_1; ring|]. unfold e.
      replace (b * sumR x) with (sumR y * a) by lra. field. lra.
Qed.
End Gibbs.
