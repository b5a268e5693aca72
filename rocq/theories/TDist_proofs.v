(** Student's t: the distribution function is the integral of the density when Gauss's function is exact. *)
From Coq Require Import Arith Lia List Bool ZArith Reals Lra Psatz.
From Coquelicot Require Import Coquelicot.
From Verif Require Import Outcome Scalar RealOps Int_model Ode_model Special_model Stat_model.
From Verif Require Import Special_spec Stat_spec Discrete_proofs OdeOrder_proofs Continuous_proofs Normal_proofs Special_proofs GammaFun_proofs GammaDist_proofs.
Local Open Scope R_scope.

Definition tker (n k t : R) : R := Rpower (1 + t * t / n) (- k).
Lemma tker_arg n t : 0 < n -> 0 < 1 + t * t / n.
Proof. intros Hn. assert (0 <= t * t / n) by (apply Rmult_le_pos; [nra|left; now apply Rinv_0_lt_compat]). lra. Qed.
Lemma tker_cont n k t : 0 < n -> continuous (tker n k) t.
Proof.
  intros Hn. unfold tker, Rpower. apply (ex_derive_continuous (fun t => exp (- k * ln (1 + t * t / n)))).
  auto_derive. pose proof (tker_arg n t Hn). repeat split; auto; lra.
Qed.
Lemma f21_half_int n k x : 0 < n -> x * f21_half k (- (x * x) / n) = RInt (tker n k) 0 x.
Proof.
  intros Hn. unfold f21_half.
  assert (EX : ex_RInt (tker n k) (x * 0 + 0) (x * 1 + 0)).
  { apply (ex_RInt_continuous (tker n k)). intros. now apply tker_cont. }
  pose proof (RInt_comp_lin (tker n k) x 0 0 1 EX) as E.
  replace (x * 0 + 0) with 0 in E by ring. replace (x * 1 + 0) with x in E by ring.
  rewrite <- E. rewrite RInt_scal.
  - apply (f_equal (fun u => x * u)). apply RInt_ext. intros t _. unfold tker. f_equal. field. lra.
  - apply (ex_RInt_continuous (fun y => tker n k (x * y + 0))). intros z _.
    apply (continuous_comp (fun y => x * y + 0) (tker n k)); [|now apply tker_cont].
    apply (ex_derive_continuous (fun y => x * y + 0)). auto_derive. exact I.
Qed.
Lemma tker_int_derive n k x : 0 < n -> is_derive (fun x => RInt (tker n k) 0 x) x (tker n k x).
Proof.
  intros Hn. apply (is_derive_RInt (tker n k) (fun x => RInt (tker n k) 0 x) 0 x); [|now apply tker_cont].
  apply filter_forall. intros y. apply (RInt_correct (tker n k)). apply (ex_RInt_continuous (tker n k)). intros. now apply tker_cont.
Qed.
Section T.
Context {Sp : Special R}.
Lemma td_cdf_ok n g1 g2 x : 0 < n ->
  (forall z, z <= 0 -> x_f21 (1 / 2) ((n + 1) / 2) (3 / 2) z = Ret (f21_half ((n + 1) / 2) z)) ->
  x_gamma ((n + 1) / 2) = Ret g1 -> x_gamma (n / 2) = Ret g2 ->
  td_cdf (mkT n) x = Ret (1 / 2 + g1 / (sqrt (n * PI) * g2) * RInt (tker n ((n + 1) / 2)) 0 x).
Proof.
  intros Hn HF G1 G2. unfold td_cdf; cbn [td_n]. rewrite !lit_2, !lit_R. rops. rewrite R_pow_2.
  rewrite HF.
  - rewrite G1, G2. cbn [bind]. f_equal. f_equal. rewrite <- f21_half_int by assumption. unfold Rdiv. ring.
  - pose proof (tker_arg n x Hn). assert (0 <= x * x / n) by (apply Rmult_le_pos; [nra|left; now apply Rinv_0_lt_compat]).
    replace (- (x * x) / n) with (- (x * x / n)) by (field; lra). lra.
Qed.
Lemma td_pdf_ok n g1 g2 x : 0 < n -> x_gamma ((n + 1) / 2) = Ret g1 -> x_gamma (n / 2) = Ret g2 ->
  td_pdf (mkT n) x = Ret (g1 / (sqrt (n * PI) * g2) * tker n ((n + 1) / 2) x).
Proof.
  intros Hn G1 G2. unfold td_pdf; cbn [td_n]. rewrite !lit_2. rops. rewrite G1, G2. cbn [bind]. f_equal.
  rewrite R_pow_pos by now apply tker_arg. unfold tker, Rdiv. ring.
Qed.
Lemma td_cdf_full n d g1 g2 : 0 < n -> td_new n = Ret d ->
  (forall z, z <= 0 -> x_f21 (1 / 2) ((n + 1) / 2) (3 / 2) z = Ret (f21_half ((n + 1) / 2) z)) ->
  x_gamma ((n + 1) / 2) = Ret g1 -> x_gamma (n / 2) = Ret g2 -> 0 < g1 -> 0 < g2 ->
  exists F p, (forall x, td_cdf d x = Ret (F x)) /\ (forall x, td_pdf d x = Ret (p x) /\ 0 < p x) /\
  F 0 = 1 / 2 /\ (forall x, is_derive F x (p x)) /\ (forall x y, x < y -> F x < F y).
Proof.
  intros Hn E HF G1 G2 P1 P2. assert (d = mkT n) as ->.
  { assert (E' : td_new n = Ret (mkT n)) by (apply td_new_iff; lra). rewrite E in E'. now apply Ret_inj in E'. }
  set (c := g1 / (sqrt (n * PI) * g2)).
  assert (Pc : 0 < c).
  { apply Rdiv_lt_0_compat; [exact P1|]. apply Rmult_lt_0_compat; [|exact P2]. apply sqrt_lt_R0. apply Rmult_lt_0_compat; [exact Hn|apply PI_RGT_0]. }
  set (k := (n + 1) / 2) in *.
  assert (D : forall x, is_derive (fun x => 1 / 2 + c * RInt (tker n k) 0 x) x (c * tker n k x)).
  { intro x. replace (c * tker n k x) with (0 + c * tker n k x) by ring.
    apply (is_derive_plus (fun _ => 1 / 2) (fun x => c * RInt (tker n k) 0 x)); [apply (@is_derive_const _ R_NormedModule)|].
    apply (is_derive_scal (fun x => RInt (tker n k) 0 x) x c). now apply tker_int_derive. }
  assert (PP : forall x, 0 < c * tker n k x) by (intro; apply Rmult_lt_0_compat; [exact Pc|apply exp_pos]).
  exists (fun x => 1 / 2 + c * RInt (tker n k) 0 x), (fun x => c * tker n k x). split; [|split; [intro x; split|split; [|split]]].
  - intro x. now apply td_cdf_ok.
  - now apply td_pdf_ok.
  - apply PP.
  - rewrite RInt_point. change (1 / 2 + c * 0 = 1 / 2). ring.
  - exact D.
  - intros x y Hxy. apply (incr_function_le (fun x => 1 / 2 + c * RInt (tker n k) 0 x) x y (fun x => c * tker n k x)); try lra; try (cbn; lra).
    + intros t _ _. apply D.
    + intros t _ _. apply PP.
Qed.
End T.
