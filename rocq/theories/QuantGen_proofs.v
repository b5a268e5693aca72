(** Rational approximations of inverse distribution functions: the residual is bounded through the
    differential equation of the inverse, which is a polynomial inequality. *)
From Coq Require Import Arith Lia List Bool ZArith Reals Lra Psatz.
From Coquelicot Require Import Coquelicot.
From Verif Require Import Lanczos_proofs LanczosAcc_proofs PolyDom_proofs.
Import ListNotations.
Local Open Scope R_scope.

Definition pos_ck (p : list Z) : bool := match p with [] => false | a :: p => Z.ltb 0 a && pnn p end.
Lemma pieces_ok e num den ps n d yn yd m x : forallb (piece_ck e num den) ps = true -> In (n, d, yn, yd, m) ps ->
  IZR n / IZR d <= x <= IZR n / IZR d + IZR yn / IZR yd -> IZR e * Rabs (pe num x) <= pe den x.
Proof. intros H I Hx. rewrite forallb_forall in H. exact (piece_ok _ _ _ _ _ _ _ _ x (H _ I) Hx). Qed.
Lemma pos_ok p z : pos_ck p = true -> 0 <= z -> 0 < pe p z.
Proof. exact (pe_pos_of p z). Qed.
Lemma pe_pos_gen p z : pnn p = true -> existsb (Z.ltb 0) p = true -> 0 < z -> 0 < pe p z.
Proof.
  induction p as [|a p IH]; intros H1 H2 Hz; [discriminate|]. cbn [pnn forallb existsb pe] in *.
  apply andb_true_iff in H1. destruct H1 as [H0 H1]. apply Z.leb_le, IZR_le in H0. apply orb_true_iff in H2. destruct H2 as [H2|H2].
  - apply Z.ltb_lt, IZR_lt in H2. pose proof (pnn_pos p z H1 ltac:(lra)). assert (0 <= z * pe p z) by (apply Rmult_le_pos; lra). lra.
  - specialize (IH H1 H2 Hz). assert (0 < z * pe p z) by (apply Rmult_lt_0_compat; lra). lra.
Qed.
(** Two rational functions with nearly equal positive numerators and denominators. *)
Definition close_ck (e k k' : Z) (p p' : list Z) (c : Z * Z * Z * Z * nat) : bool :=
  Z.ltb 0 k && Z.ltb 0 k' && piece_ck e (psub (pscale k' p') (pscale k p)) (pscale k p) c.
Lemma close_ratio e k k' p p' q q' n d yn yd m m' y :
  close_ck e k k' p p' (n, d, yn, yd, m) = true -> close_ck e k k' q q' (n, d, yn, yd, m') = true -> (100 <= e)%Z -> 0 < pe p y -> 0 < pe q y ->
  IZR n / IZR d <= y <= IZR n / IZR d + IZR yn / IZR yd ->
  0 < pe q' y /\ Rabs (pe p y / pe q y - pe p' y / pe q' y) <= 21 / 10 / IZR e * (pe p y / pe q y).
Proof.
  unfold close_ck. rewrite !andb_true_iff, !Z.ltb_lt. intros [[Hk Hk'] Cp] [_ Cq] He P0 Q0 Hy.
  pose proof (piece_ok _ _ _ _ _ _ _ _ y Cp Hy) as Kp. pose proof (piece_ok _ _ _ _ _ _ _ _ y Cq Hy) as Kq.
  rewrite pe_sub, !pe_scale in Kp, Kq. apply IZR_lt in Hk, Hk'. apply IZR_le in He.
  set (P := pe p y) in *. set (Q := pe q y) in *. set (P' := pe p' y) in *. set (Q' := pe q' y) in *.
  set (E := IZR e) in *. set (K := IZR k) in *. set (K' := IZR k') in *.
  assert (KP : 0 < K * P) by now apply Rmult_lt_0_compat. assert (KQ : 0 < K * Q) by now apply Rmult_lt_0_compat.
  set (u := (K' * P' - K * P) / (K * P)). set (w := (K' * Q' - K * Q) / (K * Q)).
  assert (Hu : Rabs u <= 1 / E).
  { unfold u. rewrite Rabs_div by lra. rewrite (Rabs_pos_eq (K * P)) by lra. apply Rmult_le_reg_r with (E * (K * P)); [apply Rmult_lt_0_compat; lra|].
    replace (Rabs (K' * P' - K * P) / (K * P) * (E * (K * P))) with (E * Rabs (K' * P' - K * P)) by (field; split; lra).
    replace (1 / E * (E * (K * P))) with (K * P) by (field; lra). exact Kp. }
  assert (Hw : Rabs w <= 1 / E).
  { unfold w. rewrite Rabs_div by lra. rewrite (Rabs_pos_eq (K * Q)) by lra. apply Rmult_le_reg_r with (E * (K * Q)); [apply Rmult_lt_0_compat; lra|].
    replace (Rabs (K' * Q' - K * Q) / (K * Q) * (E * (K * Q))) with (E * Rabs (K' * Q' - K * Q)) by (field; split; lra).
    replace (1 / E * (E * (K * Q))) with (K * Q) by (field; lra). exact Kq. }
  assert (EP : P' = K * P * (1 + u) / K') by (unfold u; field; lra).
  assert (EQ : Q' = K * Q * (1 + w) / K') by (unfold w; field; lra).
  assert (I1 : 1 / E <= 1 / 100). { apply Rmult_le_reg_r with E; [lra|]. replace (1 / E * E) with 1 by (field; lra). lra. }
  apply Rabs_le_between in Hu. apply Rabs_le_between in Hw. assert (IE : 0 < 1 / E) by (apply Rdiv_lt_0_compat; lra).
  assert (W : 0 < 1 + w) by lra.
  split; [rewrite EQ; apply Rdiv_lt_0_compat; [|lra]; now apply Rmult_lt_0_compat|].
  assert (RQ : P / Q - P' / Q' = P / Q * ((w - u) / (1 + w))).
  { rewrite EP, EQ. field. repeat split; lra. }
  rewrite RQ, Rabs_mult, (Rabs_pos_eq (P / Q)) by (left; now apply Rdiv_lt_0_compat). rewrite Rmult_comm.
  apply Rmult_le_compat_r; [left; now apply Rdiv_lt_0_compat|].
  rewrite Rabs_div by lra. rewrite (Rabs_pos_eq (1 + w)) by lra.
  apply Rmult_le_reg_r with (1 + w); [assumption|]. unfold Rdiv at 1. rewrite Rmult_assoc, Rinv_l, Rmult_1_r by lra.
  replace (21 / 10 / E) with (21 / 10 * (1 / E)) by (field; lra).
  assert (Rabs (w - u) <= 2 * (1 / E)) by (apply Rabs_le; lra).
  assert (21 / 10 * (1 / E) * (99 / 100) <= 21 / 10 * (1 / E) * (1 + w)) by (apply Rmult_le_compat_l; lra). lra.
Qed.
(** Derivatives of the shapes used below, for arbitrary functions. *)
Lemma der_xq (f g : R -> R) x f1 g1 : is_derive f x f1 -> is_derive g x g1 -> g x <> 0 ->
  is_derive (fun x => x * f x / g x) x (((f x + x * f1) * g x - x * f x * g1) / (g x * g x)).
Proof.
  intros Df Dg N. auto_derive.
  - repeat match goal with |- _ /\ _ => split end; first [exact I|assumption|lra|eexists; eassumption].
  - change (Derive (fun x0 => f x0) x) with (Derive f x). change (Derive (fun x0 => g x0) x) with (Derive g x).
    rewrite (is_derive_unique _ _ _ Df), (is_derive_unique _ _ _ Dg). field. exact N.
Qed.
Lemma der_q (f g : R -> R) x f1 g1 : is_derive f x f1 -> is_derive g x g1 -> g x <> 0 ->
  is_derive (fun x => f x / g x) x ((f1 * g x - f x * g1) / (g x * g x)).
Proof.
  intros Df Dg N. auto_derive.
  - repeat match goal with |- _ /\ _ => split end; first [exact I|assumption|lra|eexists; eassumption].
  - change (Derive (fun x0 => f x0) x) with (Derive f x). change (Derive (fun x0 => g x0) x) with (Derive g x).
    rewrite (is_derive_unique _ _ _ Df), (is_derive_unique _ _ _ Dg). field. exact N.
Qed.
Lemma der_cq2 c (f g : R -> R) x f1 g1 : c <> 0 -> is_derive f x f1 -> is_derive g x g1 -> g x <> 0 ->
  is_derive (fun x => f x / (c * (g x * g x))) x ((f1 * g x - 2 * f x * g1) / (c * (g x * (g x * g x)))).
Proof.
  intros Hc Df Dg N.
  assert (N2 : c * (g x * g x) <> 0) by (apply Rmult_integral_contrapositive_currified; [exact Hc|now apply Rmult_integral_contrapositive_currified]).
  auto_derive.
  - repeat match goal with |- _ /\ _ => split end; first [exact I|assumption|lra|eexists; eassumption].
  - change (Derive (fun x0 => f x0) x) with (Derive f x). change (Derive (fun x0 => g x0) x) with (Derive g x).
    rewrite (is_derive_unique _ _ _ Df), (is_derive_unique _ _ _ Dg). field. split; [exact N|exact Hc].
Qed.
Lemma der_G c k (z z1 : R -> R) x d0 d1 : 0 < c * z1 x -> z1 x <> 0 -> c <> 0 -> is_derive z x d0 -> is_derive z1 x d1 ->
  is_derive (fun x => ln (c * z1 x) - k / 2 * (z x * z x)) x (d1 / z1 x - k * (z x * d0)).
Proof.
  intros P N C D0 D1. auto_derive.
  - repeat match goal with |- _ /\ _ => split end; first [exact I|assumption|lra|eexists; eassumption].
  - change (Derive (fun x0 => z x0) x) with (Derive z x). change (Derive (fun x0 => z1 x0) x) with (Derive z1 x).
    rewrite (is_derive_unique _ _ _ D0), (is_derive_unique _ _ _ D1). field. split; assumption.
Qed.
Lemma der_Gt c k (z z1 : R -> R) x d0 d1 : 0 < c * z1 x / (2 * x) -> z1 x <> 0 -> c <> 0 -> x <> 0 -> is_derive z x d0 -> is_derive z1 x d1 ->
  is_derive (fun x => ln (c * z1 x / (2 * x)) - k / 2 * (z x * z x) + x * x) x (d1 / z1 x - k * (z x * d0) - 1 / x + 2 * x).
Proof.
  intros P N C X D0 D1. auto_derive.
  - repeat match goal with |- _ /\ _ => split end; first [exact I|assumption|lra|eexists; eassumption].
  - change (Derive (fun x0 => z x0) x) with (Derive z x). change (Derive (fun x0 => z1 x0) x) with (Derive z1 x).
    rewrite (is_derive_unique _ _ _ D0), (is_derive_unique _ _ _ D1). field. repeat split; assumption.
Qed.

Section Dist.
(** F has the density cst exp (-kn/2 v^2). *)
Variables (F : R -> R) (cst : R) (kn : Z).
Hypothesis Hc : 0 < cst.
Hypothesis HF : forall v, is_derive F v (cst * exp (- (IZR kn / 2 * (v * v)))).

Lemma F_lip a b : (0 <= kn)%Z -> Rabs (F a - F b) <= cst * Rabs (a - b).
Proof.
  intros Hk. apply IZR_le in Hk.
  assert (W : forall a b, a <= b -> Rabs (F b - F a) <= cst * (b - a)).
  { intros x y L. replace (cst * (y - x)) with (cst * y - cst * x) by ring.
    apply (dom_deriv F (fun v => cst * exp (- (IZR kn / 2 * (v * v)))) (fun v => cst * v) (fun _ => cst)); [assumption| | |].
    - intros. apply HF.
    - intros. auto_derive; [exact I|ring].
    - intros v _. rewrite Rabs_pos_eq by (apply Rmult_le_pos; [lra|left; apply exp_pos]).
      rewrite <- (Rmult_1_r cst) at 2. apply Rmult_le_compat_l; [lra|].
      assert (0 <= IZR kn / 2 * (v * v)) by (apply Rmult_le_pos; [lra|apply Rle_0_sqr]). rewrite <- exp_0.
      destruct (Req_dec (IZR kn / 2 * (v * v)) 0) as [->|]; [rewrite Ropp_0; lra|]. left. apply exp_increasing. lra. }
  destruct (Rle_dec a b).
  - rewrite Rabs_minus_sym, (Rabs_minus_sym a b), (Rabs_pos_eq (b - a)) by lra. now apply W.
  - rewrite (Rabs_pos_eq (a - b)) by lra. apply W. lra.
Qed.

(** ** Central part: z(x) = x p(y)/q(y) with y = cn/cd - x^2 *)
Section Central.
Variables (p q : list Z) (cn cd : Z).
Hypothesis Hcd : (0 < cd)%Z.
Definition ca_y (x : R) : R := IZR cn / IZR cd - x * x.
Definition ca_a := psub (pmul p (pder q)) (pmul (pder p) q).
Definition ca_B := padd (pscale cd (pmul p q)) (pscale 2 (pmul [cn; (- cd)%Z] ca_a)).
Definition ca_C := psub (pscale 2 (pmul ca_B (pder q))) (pmul (pder ca_B) q).
Definition ca_num := psub (pscale (2 * cd) (pmul ca_C (pmul q q))) (pscale kn (pmul p (pmul ca_B ca_B))).
Definition ca_den := pscale (2 * cd) (pmul (pmul q (pmul q q)) ca_B).
Definition ca_z (x : R) : R := x * pe p (ca_y x) / pe q (ca_y x).
Definition ca_z1 (x : R) : R := pe ca_B (ca_y x) / (IZR cd * (pe q (ca_y x) * pe q (ca_y x))).
Definition ca_z2 (x : R) : R := 2 * x * pe ca_C (ca_y x) / (IZR cd * (pe q (ca_y x) * (pe q (ca_y x) * pe q (ca_y x)))).
Lemma ca_pe_derive l x : is_derive (fun x => pe l (ca_y x)) x (- 2 * x * pe (pder l) (ca_y x)).
Proof.
  apply (is_derive_comp (pe l) ca_y); [apply pe_derive|]. unfold ca_y. auto_derive; [exact I|]. ring.
Qed.
Lemma ca_z_derive x : pe q (ca_y x) <> 0 -> is_derive ca_z x (ca_z1 x).
Proof.
  intros Hq. apply IZR_lt in Hcd.
  pose proof (der_xq _ _ x _ _ (ca_pe_derive p x) (ca_pe_derive q x) Hq) as K. cbn beta in K.
  assert (E : ca_z1 x = ((pe p (ca_y x) + x * (- 2 * x * pe (pder p) (ca_y x))) * pe q (ca_y x) - x * pe p (ca_y x) * (- 2 * x * pe (pder q) (ca_y x))) / (pe q (ca_y x) * pe q (ca_y x))).
  { unfold ca_z1, ca_B, ca_a. rewrite pe_add, !pe_scale, !pe_mul, pe_sub, !pe_mul. cbn [pe]. rewrite opp_IZR.
    replace (IZR cn + ca_y x * (- IZR cd + ca_y x * 0)) with (IZR cd * (x * x)) by (unfold ca_y; field; lra). field. split; [exact Hq|lra]. }
  rewrite E. exact K.
Qed.
Lemma ca_z1_derive x : pe q (ca_y x) <> 0 -> is_derive ca_z1 x (ca_z2 x).
Proof.
  intros Hq. apply IZR_lt in Hcd.
  pose proof (der_cq2 (IZR cd) _ _ x _ _ ltac:(lra) (ca_pe_derive ca_B x) (ca_pe_derive q x) Hq) as K. cbn beta in K.
  assert (E : ca_z2 x = (- 2 * x * pe (pder ca_B) (ca_y x) * pe q (ca_y x) - 2 * pe ca_B (ca_y x) * (- 2 * x * pe (pder q) (ca_y x))) / (IZR cd * (pe q (ca_y x) * (pe q (ca_y x) * pe q (ca_y x))))).
  { unfold ca_z2, ca_C. rewrite pe_sub, pe_scale, !pe_mul. field. split; [exact Hq|lra]. }
  rewrite E. exact K.
Qed.
Lemma ca_H e x : 0 < pe q (ca_y x) -> 0 < pe ca_B (ca_y x) -> 0 <= x -> (0 < e)%Z ->
  IZR e * Rabs (pe ca_num (ca_y x)) <= pe ca_den (ca_y x) ->
  Rabs (ca_z2 x / ca_z1 x - IZR kn * (ca_z x * ca_z1 x)) <= 2 * x / IZR e.
Proof.
  intros Hq HB Hx He HD. apply IZR_lt in Hcd. apply IZR_lt in He.
  assert (Den : pe ca_den (ca_y x) = 2 * IZR cd * (pe q (ca_y x) * (pe q (ca_y x) * pe q (ca_y x)) * pe ca_B (ca_y x))).
  { unfold ca_den. rewrite pe_scale, !pe_mul, mult_IZR. reflexivity. }
  assert (Num : pe ca_num (ca_y x) = 2 * IZR cd * (pe ca_C (ca_y x) * (pe q (ca_y x) * pe q (ca_y x))) - IZR kn * (pe p (ca_y x) * (pe ca_B (ca_y x) * pe ca_B (ca_y x)))).
  { unfold ca_num. rewrite pe_sub, !pe_scale, !pe_mul, mult_IZR. reflexivity. }
  assert (PD : 0 < pe ca_den (ca_y x)).
  { rewrite Den. repeat apply Rmult_lt_0_compat; lra. }
  assert (E : ca_z2 x / ca_z1 x - IZR kn * (ca_z x * ca_z1 x) = 2 * x * (pe ca_num (ca_y x) / pe ca_den (ca_y x))).
  { rewrite Num, Den. unfold ca_z2, ca_z1, ca_z. field. repeat split; lra. }
  rewrite E, Rabs_mult, (Rabs_pos_eq (2 * x)) by lra. unfold Rdiv at 2. apply Rmult_le_compat_l; [lra|].
  unfold Rdiv. rewrite Rabs_mult, (Rabs_pos_eq (/ pe ca_den (ca_y x))) by (left; now apply Rinv_0_lt_compat).
  apply Rmult_le_reg_r with (IZR e * pe ca_den (ca_y x)); [now apply Rmult_lt_0_compat|].
  replace (Rabs (pe ca_num (ca_y x)) * / pe ca_den (ca_y x) * (IZR e * pe ca_den (ca_y x))) with (IZR e * Rabs (pe ca_num (ca_y x))) by (field; lra).
  replace (/ IZR e * (IZR e * pe ca_den (ca_y x))) with (pe ca_den (ca_y x)) by (field; lra). exact HD.
Qed.
(** The hypotheses of [ca_bound], checked with shared intermediate results. *)
Definition ca_ck (e : Z) (ps : list (Z * Z * Z * Z * nat)) : bool :=
  let q1 := pder q in let a := psub (pmul p q1) (pmul (pder p) q) in
  let b := padd (pscale cd (pmul p q)) (pscale 2 (pmul [cn; (- cd)%Z] a)) in
  let c := psub (pscale 2 (pmul b q1)) (pmul (pder b) q) in
  let qq := pmul q q in
  let num := psub (pscale (2 * cd) (pmul c qq)) (pscale kn (pmul p (pmul b b))) in
  let den := pscale (2 * cd) (pmul (pmul q qq) b) in
  pos_ck q && pos_ck b && forallb (piece_ck e num den) ps.
Lemma ca_ck_ok e ps : ca_ck e ps = true ->
  pos_ck q = true /\ pos_ck ca_B = true /\ forallb (piece_ck e ca_num ca_den) ps = true.
Proof. unfold ca_ck. rewrite !andb_true_iff. intros [[H1 H2] H3]. split; [exact H1|]. split; [exact H2|exact H3]. Qed.
Definition ca_G (x : R) : R := ln (cst * ca_z1 x) - IZR kn / 2 * (ca_z x * ca_z x).
Definition ca_E (x : R) : R := F (ca_z x) - x.
Lemma ca_bound e lo hi g0 : 0 <= lo <= hi -> (0 < e)%Z ->
  (forall x, lo <= x <= hi -> 0 < pe q (ca_y x) /\ 0 < pe ca_B (ca_y x) /\ IZR e * Rabs (pe ca_num (ca_y x)) <= pe ca_den (ca_y x)) ->
  Rabs (ca_G lo) <= g0 -> g0 + (hi * hi - lo * lo) / IZR e <= 1 / 100 ->
  Rabs (ca_G hi) <= g0 + (hi * hi - lo * lo) / IZR e /\
  Rabs (ca_E hi - ca_E lo) <= 51 / 50 * (g0 + (hi * hi - lo * lo) / IZR e) * (hi - lo).
Proof.
  intros L He HP G0 Gs. pose proof (IZR_lt _ _ Hcd) as Hcd'. pose proof (IZR_lt _ _ He) as He'.
  assert (Z1 : forall x, lo <= x <= hi -> 0 < ca_z1 x).
  { intros x Hx. destruct (HP x Hx) as [Q [B _]]. unfold ca_z1. apply Rdiv_lt_0_compat; [assumption|]. repeat apply Rmult_lt_0_compat; assumption. }
  assert (DG : forall x, lo <= x <= hi -> is_derive ca_G x (ca_z2 x / ca_z1 x - IZR kn * (ca_z x * ca_z1 x))).
  { intros x Hx. destruct (HP x Hx) as [Q [B _]]. specialize (Z1 x Hx).
    pose proof (ca_z_derive x ltac:(lra)) as D0. pose proof (ca_z1_derive x ltac:(lra)) as D1.
    apply der_G; try assumption; try lra. now apply Rmult_lt_0_compat. }
  assert (BG : forall s, lo <= s <= hi -> Rabs (ca_G s) <= g0 + (s * s - lo * lo) / IZR e).
  { intros s Hs.
    pose proof (dom_deriv ca_G (fun x => ca_z2 x / ca_z1 x - IZR kn * (ca_z x * ca_z1 x)) (fun x => x * x / IZR e) (fun x => 2 * x / IZR e) lo s (proj1 Hs)) as K.
    assert (K' : Rabs (ca_G s - ca_G lo) <= s * s / IZR e - lo * lo / IZR e).
    { apply K.
      - intros x Hx. apply DG. lra.
      - intros x Hx. auto_derive; [exact I|]. field. lra.
      - intros x Hx. destruct (HP x ltac:(lra)) as [Q [B M]]. apply ca_H; try assumption. lra. }
    pose proof (Rabs_triang (ca_G s - ca_G lo) (ca_G lo)) as T. replace (ca_G s - ca_G lo + ca_G lo) with (ca_G s) in T by ring. lra. }
  split; [apply BG; lra|].
  set (g := g0 + (hi * hi - lo * lo) / IZR e) in *.
  assert (Bg : forall s, lo <= s <= hi -> Rabs (ca_G s) <= g).
  { intros s Hs. eapply Rle_trans; [now apply BG|]. unfold g. apply Rplus_le_compat_l. unfold Rdiv. apply Rmult_le_compat_r; [left; now apply Rinv_0_lt_compat|]. nra. }
  replace (51 / 50 * g * (hi - lo)) with (51 / 50 * g * hi - 51 / 50 * g * lo) by ring.
  apply (dom_deriv ca_E (fun x => exp (ca_G x) - 1) (fun x => 51 / 50 * g * x) (fun _ => 51 / 50 * g)); [lra| | |].
  - intros x Hx. destruct (HP x Hx) as [Q [B _]]. specialize (Z1 x Hx). pose proof (ca_z_derive x ltac:(lra)) as D0.
    unfold ca_E. apply (is_derive_minus (fun x => F (ca_z x)) (fun x => x)); [|apply (is_derive_id x)].
    assert (E : exp (ca_G x) = scal (ca_z1 x) (cst * exp (- (IZR kn / 2 * (ca_z x * ca_z x))))).
    { unfold ca_G, Rminus. rewrite exp_plus, exp_ln by (now apply Rmult_lt_0_compat). unfold scal; cbn; unfold mult; cbn. ring. }
    rewrite E. apply (is_derive_comp F ca_z); [apply HF|exact D0].
  - intros x Hx. auto_derive; [exact I|ring].
  - intros x Hx. apply exp_small; [now apply Bg|assumption].
Qed.
End Central.

(** ** Tail: z(r) = N(y)/D(y) with y = r - rn/rd, for the argument 1 - exp (- r^2) *)
Section Tail.
Variables (N D : list Z) (rn rd : Z).
Hypothesis Hrd : (0 < rd)%Z.
Definition ta_y (r : R) : R := r - IZR rn / IZR rd.
Definition ta_a := psub (pmul (pder N) D) (pmul N (pder D)).
Definition ta_c := psub (pmul (pder ta_a) D) (pscale 2 (pmul ta_a (pder D))).
Definition ta_num := padd
  (pscale rd (pmul [rn; rd] (psub (pmul ta_c (pmul D D)) (pscale kn (pmul N (pmul ta_a ta_a))))))
  (pmul (psub (pscale 2 (pmul [rn; rd] [rn; rd])) [(rd * rd)%Z]) (pmul ta_a (pmul D (pmul D D)))).
Definition ta_den := pscale rd (pmul [rn; rd] (pmul ta_a (pmul D (pmul D D)))).
Definition ta_z (r : R) : R := pe N (ta_y r) / pe D (ta_y r).
Definition ta_z1 (r : R) : R := pe ta_a (ta_y r) / (pe D (ta_y r) * pe D (ta_y r)).
Definition ta_z2 (r : R) : R := pe ta_c (ta_y r) / (pe D (ta_y r) * (pe D (ta_y r) * pe D (ta_y r))).
Lemma ta_pe_derive l r : is_derive (fun r => pe l (ta_y r)) r (pe (pder l) (ta_y r)).
Proof.
  assert (K : is_derive (fun r => pe l (ta_y r)) r (1 * pe (pder l) (ta_y r))).
  { apply (is_derive_comp (pe l) ta_y); [apply pe_derive|]. unfold ta_y. auto_derive; [exact I|]. ring. }
  rewrite Rmult_1_l in K. exact K.
Qed.
Lemma ta_z_derive r : pe D (ta_y r) <> 0 -> is_derive ta_z r (ta_z1 r).
Proof.
  intros Hq. pose proof (der_q _ _ r _ _ (ta_pe_derive N r) (ta_pe_derive D r) Hq) as K. cbn beta in K.
  unfold ta_z1, ta_a. rewrite pe_sub, !pe_mul. exact K.
Qed.
Lemma ta_z1_derive r : pe D (ta_y r) <> 0 -> is_derive ta_z1 r (ta_z2 r).
Proof.
  intros Hq. pose proof (der_cq2 1 _ _ r _ _ ltac:(lra) (ta_pe_derive ta_a r) (ta_pe_derive D r) Hq) as K. cbn beta in K.
  apply (is_derive_ext (fun x => pe ta_a (ta_y x) / (1 * (pe D (ta_y x) * pe D (ta_y x))))).
  - intros t. unfold ta_z1. now rewrite Rmult_1_l.
  - assert (E : ta_z2 r = (pe (pder ta_a) (ta_y r) * pe D (ta_y r) - 2 * pe ta_a (ta_y r) * pe (pder D) (ta_y r)) / (1 * (pe D (ta_y r) * (pe D (ta_y r) * pe D (ta_y r))))).
    { unfold ta_z2, ta_c. rewrite pe_sub, pe_scale, !pe_mul. field. exact Hq. }
    rewrite E. exact K.
Qed.
Lemma ta_H e r : 0 < pe D (ta_y r) -> 0 < pe ta_a (ta_y r) -> 0 < r -> (0 < e)%Z ->
  IZR e * Rabs (pe ta_num (ta_y r)) <= pe ta_den (ta_y r) ->
  Rabs (ta_z2 r / ta_z1 r - IZR kn * (ta_z r * ta_z1 r) - 1 / r + 2 * r) <= 1 / IZR e.
Proof.
  intros HD Ha Hr He HM. pose proof (IZR_lt _ _ Hrd) as Hrd'. apply IZR_lt in He.
  assert (S : IZR rn + ta_y r * (IZR rd + ta_y r * 0) = IZR rd * r) by (unfold ta_y; field; lra).
  assert (Den : pe ta_den (ta_y r) = IZR rd * (IZR rd * r * (pe ta_a (ta_y r) * (pe D (ta_y r) * (pe D (ta_y r) * pe D (ta_y r)))))).
  { unfold ta_den. rewrite pe_scale, !pe_mul. cbn [pe]. rewrite S. reflexivity. }
  assert (Num : pe ta_num (ta_y r) = IZR rd * (IZR rd * r * (pe ta_c (ta_y r) * (pe D (ta_y r) * pe D (ta_y r)) - IZR kn * (pe N (ta_y r) * (pe ta_a (ta_y r) * pe ta_a (ta_y r))))) + (2 * (IZR rd * r * (IZR rd * r)) - IZR rd * IZR rd) * (pe ta_a (ta_y r) * (pe D (ta_y r) * (pe D (ta_y r) * pe D (ta_y r))))).
  { unfold ta_num. rewrite pe_add, pe_scale. repeat first [rewrite pe_mul|rewrite pe_sub|rewrite pe_scale]. cbn [pe]. rewrite S, mult_IZR. ring. }
  assert (PD : 0 < pe ta_den (ta_y r)).
  { rewrite Den. repeat apply Rmult_lt_0_compat; lra. }
  assert (E : ta_z2 r / ta_z1 r - IZR kn * (ta_z r * ta_z1 r) - 1 / r + 2 * r = pe ta_num (ta_y r) / pe ta_den (ta_y r)).
  { rewrite Num, Den. unfold ta_z2, ta_z1, ta_z. field. repeat split; lra. }
  rewrite E. unfold Rdiv. rewrite Rabs_mult, (Rabs_pos_eq (/ pe ta_den (ta_y r))) by (left; now apply Rinv_0_lt_compat).
  apply Rmult_le_reg_r with (IZR e * pe ta_den (ta_y r)); [now apply Rmult_lt_0_compat|].
  replace (Rabs (pe ta_num (ta_y r)) * / pe ta_den (ta_y r) * (IZR e * pe ta_den (ta_y r))) with (IZR e * Rabs (pe ta_num (ta_y r))) by (field; lra).
  replace (1 * / IZR e * (IZR e * pe ta_den (ta_y r))) with (pe ta_den (ta_y r)) by (field; lra). exact HM.
Qed.
Definition ta_G (r : R) : R := ln (cst * ta_z1 r / (2 * r)) - IZR kn / 2 * (ta_z r * ta_z r) + r * r.
Definition ta_E (r : R) : R := F (ta_z r) - (1 - exp (- (r * r))).
Lemma ta_bound e lo hi g0 : 0 < lo <= hi -> (0 < e)%Z ->
  (forall r, lo <= r <= hi -> 0 < pe D (ta_y r) /\ 0 < pe ta_a (ta_y r) /\ IZR e * Rabs (pe ta_num (ta_y r)) <= pe ta_den (ta_y r)) ->
  Rabs (ta_G lo) <= g0 -> g0 + (hi - lo) / IZR e <= 1 / 100 ->
  Rabs (ta_G hi) <= g0 + (hi - lo) / IZR e /\
  Rabs (ta_E hi - ta_E lo) <= 51 / 50 * (g0 + (hi - lo) / IZR e) * (exp (- (lo * lo)) - exp (- (hi * hi))).
Proof.
  intros L He HP G0 Gs. pose proof (IZR_lt _ _ He) as He'.
  assert (Z1 : forall x, lo <= x <= hi -> 0 < ta_z1 x).
  { intros x Hx. destruct (HP x Hx) as [Q [B _]]. unfold ta_z1. apply Rdiv_lt_0_compat; [assumption|]. now apply Rmult_lt_0_compat. }
  assert (Z2 : forall x, lo <= x <= hi -> 0 < cst * ta_z1 x / (2 * x)).
  { intros x Hx. apply Rdiv_lt_0_compat; [apply Rmult_lt_0_compat; [assumption|now apply Z1]|lra]. }
  assert (DG : forall x, lo <= x <= hi -> is_derive ta_G x (ta_z2 x / ta_z1 x - IZR kn * (ta_z x * ta_z1 x) - 1 / x + 2 * x)).
  { intros x Hx. destruct (HP x Hx) as [Q [B _]]. specialize (Z1 x Hx). specialize (Z2 x Hx).
    pose proof (ta_z_derive x ltac:(lra)) as D0. pose proof (ta_z1_derive x ltac:(lra)) as D1.
    apply der_Gt; try assumption; lra. }
  assert (BG : forall s, lo <= s <= hi -> Rabs (ta_G s) <= g0 + (s - lo) / IZR e).
  { intros s Hs.
    assert (K' : Rabs (ta_G s - ta_G lo) <= s / IZR e - lo / IZR e).
    { apply (dom_deriv ta_G (fun x => ta_z2 x / ta_z1 x - IZR kn * (ta_z x * ta_z1 x) - 1 / x + 2 * x) (fun x => x / IZR e) (fun x => 1 / IZR e) lo s (proj1 Hs)).
      - intros x Hx. apply DG. lra.
      - intros x Hx. auto_derive; [exact I|]. field. lra.
      - intros x Hx. destruct (HP x ltac:(lra)) as [Q [B M]]. apply ta_H; try assumption. lra. }
    pose proof (Rabs_triang (ta_G s - ta_G lo) (ta_G lo)) as T. replace (ta_G s - ta_G lo + ta_G lo) with (ta_G s) in T by ring. lra. }
  split; [apply BG; lra|].
  set (g := g0 + (hi - lo) / IZR e) in *.
  assert (Bg : forall s, lo <= s <= hi -> Rabs (ta_G s) <= g).
  { intros s Hs. eapply Rle_trans; [now apply BG|]. unfold g. apply Rplus_le_compat_l. unfold Rdiv. apply Rmult_le_compat_r; [left; now apply Rinv_0_lt_compat|]. lra. }
  replace (51 / 50 * g * (exp (- (lo * lo)) - exp (- (hi * hi)))) with (- (51 / 50 * g) * exp (- (hi * hi)) - - (51 / 50 * g) * exp (- (lo * lo))) by ring.
  apply (dom_deriv ta_E (fun x => 2 * x * exp (- (x * x)) * (exp (ta_G x) - 1)) (fun x => - (51 / 50 * g) * exp (- (x * x))) (fun x => 2 * x * exp (- (x * x)) * (51 / 50 * g))); [lra| | |].
  - intros x Hx. destruct (HP x Hx) as [Q [B _]]. specialize (Z1 x Hx). specialize (Z2 x Hx). pose proof (ta_z_derive x ltac:(lra)) as D0.
    assert (E : 2 * x * exp (- (x * x)) * (exp (ta_G x) - 1) = scal (ta_z1 x) (cst * exp (- (IZR kn / 2 * (ta_z x * ta_z x)))) - 2 * x * exp (- (x * x))).
    { unfold ta_G, Rminus. rewrite exp_plus, exp_plus, exp_ln by assumption. unfold scal; cbn; unfold mult; cbn.
      rewrite (exp_Ropp (x * x)). pose proof (exp_pos (x * x)). field. split; lra. }
    rewrite E. unfold ta_E. apply (is_derive_minus (fun x => F (ta_z x)) (fun x => 1 - exp (- (x * x)))).
    + apply (is_derive_comp F ta_z); [apply HF|exact D0].
    + auto_derive; [exact I|ring].
  - intros x Hx. auto_derive; [exact I|ring].
  - intros x Hx. rewrite Rabs_mult, (Rabs_pos_eq (2 * x * exp (- (x * x)))).
    + apply Rmult_le_compat_l; [apply Rmult_le_pos; [lra|left; apply exp_pos]|]. apply exp_small; [now apply Bg|assumption].
    + apply Rmult_le_pos; [lra|left; apply exp_pos].
Qed.
(** The hypotheses of [ta_bound], checked with shared intermediate results. *)
Definition ta_ck (e : Z) (ps : list (Z * Z * Z * Z * nat)) : bool :=
  let d1 := pder D in let a := psub (pmul (pder N) D) (pmul N d1) in let dd := pmul D D in
  let c := psub (pmul (pder a) D) (pscale 2 (pmul a d1)) in
  let ad3 := pmul a (pmul D dd) in
  let num := padd (pscale rd (pmul [rn; rd] (psub (pmul c dd) (pscale kn (pmul N (pmul a a))))))
     (pmul (psub (pscale 2 (pmul [rn; rd] [rn; rd])) [(rd * rd)%Z]) ad3) in
  let den := pscale rd (pmul [rn; rd] ad3) in
  pnn a && existsb (Z.ltb 0) a && forallb (piece_ck e num den) ps.
Lemma ta_ck_ok e ps : ta_ck e ps = true ->
  pnn ta_a = true /\ existsb (Z.ltb 0) ta_a = true /\ forallb (piece_ck e ta_num ta_den) ps = true.
Proof. unfold ta_ck. rewrite !andb_true_iff. intros [[H1 H2] H3]. split; [exact H1|]. split; [exact H2|exact H3]. Qed.
(** z increases wherever the numerator of its derivative is positive. *)
Lemma ta_mono lo hi : lo <= hi -> (forall r, lo <= r <= hi -> 0 < pe D (ta_y r) /\ 0 < pe ta_a (ta_y r)) -> ta_z lo <= ta_z hi.
Proof.
  intros L HP. destruct (Rle_lt_or_eq_dec _ _ L) as [L'|<-]; [|lra].
  destruct (MVT_gen ta_z lo hi ta_z1) as [c [Hc' E]].
  - rewrite Rmin_left, Rmax_right by lra. intros r Hr. apply ta_z_derive. destruct (HP r ltac:(lra)). lra.
  - rewrite Rmin_left, Rmax_right by lra. intros r Hr. apply continuity_pt_filterlim.
    apply (ex_derive_continuous ta_z r). eexists. apply ta_z_derive. destruct (HP r ltac:(lra)). lra.
  - rewrite Rmin_left, Rmax_right in Hc' by lra. destruct (HP c Hc') as [H1 H2].
    assert (0 < ta_z1 c) by (unfold ta_z1; apply Rdiv_lt_0_compat; [assumption|now apply Rmult_lt_0_compat]).
    assert (0 < ta_z1 c * (hi - lo)) by (apply Rmult_lt_0_compat; lra). lra.
Qed.
End Tail.
End Dist.
