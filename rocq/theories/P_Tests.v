(** Property theorems C61 and C63: sample moments and hypothesis tests.

    Reading guide (Stat_spec.v).  [avg l] is the arithmetic mean, [sample_variance l] the sum of squared
    deviations over n - 1, [pair_variance l] the sum of all (x_i - x_j)^2 over 2 n (n - 1).
    [pearson x y] is Pearson's statistic of the 2 x m table with rows x and y, [g_stat x y] the G
    statistic of the counts x against the proportions y; [proportional x y]: y = c x for some c.
    [welch_t], [welch_df] are Welch's statistic and degrees of freedom. *)
From Coq Require Import Arith Lia List Bool ZArith Reals Lra Psatz SpecFloat Permutation.
From Coquelicot Require Import Coquelicot.
From Verif Require Import Outcome Scalar RealOps Int_model Ode_model Special_model Stat_model Stat_spec Discrete_proofs Continuous_proofs Normal_proofs Sample_proofs GammaFun_proofs GammaDist_proofs StatExtra_proofs StatNew_proofs.
Import ListNotations.
Local Open Scope R_scope.

(** * C61 *)
Theorem C61_from_data : forall l : list R,
  ((2 <= length l)%nat -> ~ constant l -> exists d, normal_from_data l = Ret d /\ normal_mean d = avg l /\ normal_variance d = sample_variance l) /\
  ((length l < 2)%nat \/ constant l -> normal_from_data l = Panic).
Proof.
  intro l. split; [|apply normal_from_data_panic]. intros H C. eexists. split; [now apply normal_from_data_ok|]. split; reflexivity.
Qed.
Print Assumptions C61_from_data.
Theorem C61_pairwise : forall l, (2 <= length l)%nat -> sample_variance l = pair_variance l /\ 0 <= sample_variance l /\
  (sample_variance l = 0 <-> constant l).
Proof. intros l H. split; [now apply sample_pair|]. split; [now apply sample_variance_nonneg|now apply sample_variance_zero]. Qed.
Print Assumptions C61_pairwise.
(** Order does not matter; shifting the data shifts the mean, scaling multiplies the variance by c^2. *)
Theorem C61_permutation : forall l l' : list R, Permutation l l' -> normal_from_data l = normal_from_data l'.
Proof. exact normal_from_data_perm. Qed.
Print Assumptions C61_permutation.
Theorem C61_affine : forall (l : list R) d c a e, normal_from_data l = Ret d ->
  normal_from_data (map (fun x => a * x + c) l) = Ret e ->
  normal_mean e = a * normal_mean d + c /\ normal_variance e = a * a * normal_variance d.
Proof.
  intros l d c a e Hd He. apply normal_from_data_ret in Hd, He. destruct Hd as (H & _ & ->), He as (_ & _ & ->).
  unfold normal_mean, normal_variance; cbn [no_mean no_var].
  rewrite <- (map_map (fun x => a * x) (fun x => x + c)).
  rewrite avg_shift, avg_scale, sample_variance_shift, sample_variance_scale by (rewrite map_length; lia). split; reflexivity.
Qed.
Print Assumptions C61_affine.
Example C61_example : (2 <= length [1; 2; 6])%nat /\ ~ constant [1; 2; 6] /\ avg [1; 2; 6] = 3 /\ sample_variance [1; 2; 6] = 7 /\ constant [2; 2].
Proof.
  split; [cbn; lia|]. split; [intro C; specialize (C 1 2 ltac:(cbn; auto) ltac:(cbn; auto)); lra|].
  split; [unfold avg, sumR; cbn; lra|]. split; [unfold sample_variance, avg, sumR; cbn; lra|].
  intros x y [<-|[<-|[]]] [<-|[<-|[]]]; reflexivity.
Qed.

(** * C63 *)
Theorem C63_chi_test : forall x y : list R,
  (length x = length y -> (1 <= length x)%nat ->
     exists t, chi_test_vector x y = Ret t /\ ct_value t = pearson x y /\ ct_df t = (length x - 1)%nat) /\
  (length x <> length y \/ length x = 0%nat -> chi_test_vector x y = Panic).
Proof.
  intros x y. split; [|apply chi_test_panic]. intros H H'. eexists. split; [now apply chi_test_ok|]. split; reflexivity.
Qed.
Print Assumptions C63_chi_test.
Theorem C63_pearson : forall x y, length x = length y -> 0 < sumR x -> 0 < sumR y ->
  (forall a b, In (a, b) (combine x y) -> 0 < a + b) ->
  0 <= pearson x y /\ (pearson x y = 0 <-> proportional x y) /\ pearson y x = pearson x y.
Proof.
  intros x y H Hx Hy Hp. split; [now apply pearson_nonneg|]. split; [now apply pearson_zero|now apply pearson_sym].
Qed.
Print Assumptions C63_pearson.
Theorem C63_g_test : forall x y : list R,
  (length x = length y -> (1 <= length x)%nat -> sumR x <> 0 -> sumR y <> 0 ->
     exists t, g_test_vector x y = Ret t /\ gt_g t = g_stat x y /\ gt_df t = (length x - 1)%nat) /\
  (length x <> length y \/ length x = 0%nat -> g_test_vector x y = Panic).
Proof.
  intros x y. split; [|apply g_test_panic]. intros H H' Hx Hy. eexists. split; [now apply g_test_ok|]. split; reflexivity.
Qed.
Print Assumptions C63_g_test.
Theorem C63_g_stat : forall x y, length x = length y -> 0 < sumR x -> 0 < sumR y ->
  (forall a b, In (a, b) (combine x y) -> 0 < a /\ 0 < b) ->
  0 <= g_stat x y /\ (g_stat x y = 0 <-> proportional x y).
Proof. intros x y H Hx Hy Hp. split; [now apply g_stat_nonneg|now apply g_stat_zero]. Qed.
Print Assumptions C63_g_stat.
(** The p value of a 2 x 1 table panics: its zero degrees of freedom are rejected by ChiSquare::new. *)
Theorem C63_one_column_refuted : forall (Sp : Special R) (a b : R), exists t, chi_test_vector [a] [b] = Ret t /\ chi_test_p t = Panic.
Proof.
  intros Sp a b. eexists. split; [apply chi_test_ok; cbn; lia|]. unfold chi_test_p; cbn [ct_df length Nat.sub]. now rewrite chi_new_0.
Qed.
Print Assumptions C63_one_column_refuted.
(** Over exact special functions the p value is 1 - F(value), F the chi-square distribution function
    with m - 1 degrees of freedom; it lies
    strictly between 0 and 1.  The same holds for the G test. *)
Theorem C63_p_value : forall (Sp : Special R),
  (forall n, (1 <= n)%nat -> exists g, x_gamma (INR n / 2) = Ret g /\ euler_gamma (INR n / 2) g) ->
  (forall x, x_erf x = Ret (erf_true x)) ->
  forall t, (1 <= ct_df t)%nat -> (Z.of_nat (ct_df t) <= 2 ^ 32 - 1)%Z -> 0 < ct_value t ->
  exists F p, is_gamma_lr (INR (ct_df t) / 2) F /\ chi_test_p t = Ret p /\ p = 1 - F (ct_value t / 2) /\ 0 < p < 1.
Proof.
  intros Sp Hg He t H1 H2 H3. destruct (chi_law Hg He (ct_df t) H1 H2) as (F & g & Eg & HF & Hc & Hd).
  exists F, (1 - F (ct_value t / 2)). split; [exact (glr_is _ _ _ HF)|]. split; [|split; [reflexivity|]].
  - unfold chi_test_p. rewrite (proj2 (chi_new_iff (ct_df t)) H1). cbn [bind]. rewrite (Hc _ H3). cbn [bind].
    rops. do 2 f_equal. f_equal. lra.
  - destruct (glr_range _ _ _ HF (ct_value t / 2)) as [A B]; lra.
Qed.
Print Assumptions C63_p_value.
Theorem C63_g_p_value : forall (Sp : Special R),
  (forall n, (1 <= n)%nat -> exists g, x_gamma (INR n / 2) = Ret g /\ euler_gamma (INR n / 2) g) ->
  (forall x, x_erf x = Ret (erf_true x)) ->
  forall t, (1 <= gt_df t)%nat -> (Z.of_nat (gt_df t) <= 2 ^ 32 - 1)%Z -> 0 < gt_g t ->
  exists F p, is_gamma_lr (INR (gt_df t) / 2) F /\ g_test_p t = Ret p /\ p = 1 - F (gt_g t / 2) /\ 0 < p < 1.
Proof. intros Sp Hg He [df v] H1 H2 H3. exact (C63_p_value Sp Hg He (mkChiTest df v) H1 H2 H3). Qed.
Print Assumptions C63_g_p_value.
(** The one-sample t statistic is sqrt n (mean - mu) / s. *)
Theorem C63_t_one_sample : forall (l : list R) mu,
  ((2 <= length l)%nat -> ~ constant l -> exists t, t_one_sample l mu = Ret t /\
     tt_t t = sqrt (INR (length l)) * (avg l - mu) / sqrt (sample_variance l)) /\
  ((length l < 2)%nat \/ constant l -> t_one_sample l mu = Panic).
Proof.
  intros l mu. split; [|apply t_one_sample_panic]. intros H C. eexists. split; [now apply t_one_sample_ok|reflexivity].
Qed.
Print Assumptions C63_t_one_sample.
(** The equal-variance statistic uses the pooled variance ((n-1) s_x^2 + (m-1) s_y^2) / (n + m - 2). *)
Theorem C63_t_equal_variance : forall x y : list R, (2 <= length x)%nat -> (2 <= length y)%nat -> ~ constant x -> ~ constant y ->
  exists t, t_equal_variance x y = Ret t /\
  tt_t t = (avg x - avg y)
     / (sqrt (((INR (length x) - 1) * sample_variance x + (INR (length y) - 1) * sample_variance y)
              / (INR (length x) + INR (length y) - 2))
        * sqrt (1 / INR (length x) + 1 / INR (length y))).
Proof. intros. eexists. split; [now apply t_equal_ok|reflexivity]. Qed.
Print Assumptions C63_t_equal_variance.
(** Neither of these two tests computes a p value: the one reported is 0 for every sample. *)
Theorem C63_t_p_value_refuted :
  (forall (l : list R) mu t, t_one_sample l mu = Ret t -> tt_p t = 0) /\
  (forall (x y : list R) t, t_equal_variance x y = Ret t -> tt_p t = 0) /\
  (exists (l : list R) t, t_one_sample l (avg l) = Ret t /\ tt_t t = 0 /\ tt_p t = 0).
Proof.
  split; [|split].
  - intros l mu t E. unfold t_one_sample in E. destruct (normal_from_data l); cbn in E; [|discriminate]. injection E as <-; reflexivity.
  - intros x y t E. unfold t_equal_variance in E. destruct (normal_from_data x); cbn [bind] in E; [|discriminate].
    destruct (normal_from_data y); cbn [bind] in E; [|discriminate]. destruct (usub _ _); cbn [bind] in E; [|discriminate]. injection E as <-; reflexivity.
  - exists [1; 2; 6]. eexists. split; [apply t_one_sample_ok; [cbn; lia|intro C; specialize (C 1 2 ltac:(cbn; auto) ltac:(cbn; auto)); lra]|].
    cbn [tt_t tt_p]. split; [|reflexivity]. unfold Rdiv. rewrite Rminus_diag_eq by reflexivity. ring.
Qed.
Print Assumptions C63_t_p_value_refuted.
(** The degrees of freedom a t test reports are 0 for every sample, never n - 1 (nor n + m - 2). *)
Theorem C63_t_df_refuted :
  (forall (l : list R) mu t, t_one_sample l mu = Ret t -> t_test_df t = 0%nat /\ t_test_df t <> (length l - 1)%nat) /\
  (forall (x y : list R) t, t_equal_variance x y = Ret t ->
     t_test_df t = 0%nat /\ (2 < length x + length y -> t_test_df t <> length x + length y - 2)%nat).
Proof.
  split.
  - intros l mu t E. split; [reflexivity|]. destruct (le_lt_dec 2 (length l)) as [H|H]; [unfold t_test_df; lia|].
    rewrite (t_one_sample_panic l mu (or_introl H)) in E. discriminate.
  - intros x y t E. split; [reflexivity|]. unfold t_test_df. lia.
Qed.
Print Assumptions C63_t_df_refuted.
(** Welch's test: the statistic, and the two-sided p value 2 F(-|t|) of the t distribution with
    Welch's degrees of freedom, are what the code computes whatever special functions it is given;
    swapping the samples negates the statistic and keeps the p value. *)
Theorem C63_welch : forall (Sp : Special R) (x y : list R), (2 <= length x)%nat -> (2 <= length y)%nat -> ~ constant x -> ~ constant y ->
  exists d, td_new (welch_df x y) = Ret d /\
  (forall c, td_cdf d (- Rabs (welch_t x y)) = Ret c ->
     (exists t, t_unequal_variance x y = Ret t /\ tt_t t = welch_t x y /\ tt_p t = 2 * c) /\
     (exists t, t_unequal_variance y x = Ret t /\ tt_t t = - welch_t x y /\ tt_p t = 2 * c)).
Proof.
  intros Sp x y Hx Hy Cx Cy. exists (mkT (welch_df x y)). split.
  - apply td_new_iff. apply Rlt_le. now apply welch_df_pos.
  - intros c E. split.
    + exists (mkTTest (2 * c) (welch_t x y)). rewrite t_unequal_ok by assumption. rewrite E. repeat split.
    + exists (mkTTest (2 * c) (- welch_t x y)). rewrite t_unequal_ok by assumption.
      rewrite welch_t_swap, welch_df_swap, Rabs_Ropp, E. repeat split.
Qed.
Print Assumptions C63_welch.
Example C63_example : length [1; 2; 3] = length [2; 3; 5] /\ 0 < sumR [1; 2; 3] /\ 0 < sumR [2; 3; 5] /\
  (forall a b, In (a, b) (combine [1; 2; 3] [2; 3; 5]) -> 0 < a /\ 0 < b) /\ ~ proportional [1; 2; 3] [2; 3; 5] /\
  proportional [1; 2; 3] [2; 4; 6] /\
  exists Sp : Special R, (forall n, (1 <= n)%nat -> exists g, x_gamma (INR n / 2) = Ret g /\ euler_gamma (INR n / 2) g) /\
    (forall x, x_erf x = Ret (erf_true x)).
Proof.
  split; [reflexivity|]. split; [unfold sumR; cbn; lra|]. split; [unfold sumR; cbn; lra|].
  split; [intros a b [H|[H|[H|[]]]]; injection H as <- <-; lra|].
  split; [intros [c H]; injection H; intros; lra|]. split; [exists 2; cbn; repeat f_equal; lra|].
  exists exact_special. split; [apply exact_gamma|reflexivity].
Qed.
