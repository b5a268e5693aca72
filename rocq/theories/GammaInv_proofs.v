(** The correction steps of the inverse incomplete gamma function (gamma.rs:576-640) and the
    unregularised incomplete beta function (beta.rs:114-117). *)
From Coq Require Import Arith Lia List Bool ZArith Reals Lra Psatz.
From Coquelicot Require Import Coquelicot.
From Verif Require Import Outcome Scalar RealOps Int_model Ode_model Elem_model Special_model Special_spec Stat_spec Discrete_proofs OdeOrder_proofs Special_proofs SpecialNew_proofs Soper_proofs.
Import ListNotations.
Local Open Scope R_scope.

(** The density of the gamma distribution with the crate's own normalisation [g]. *)
Definition gdens (a g y : R) : R := Rpower y (a - 1) * exp (- y) / g.
Lemma gdens_derive a g x : 0 < x -> g <> 0 -> is_derive (gdens a g) x ((a - 1 - x) / x * gdens a g x).
Proof.
  intros Hx Hg. unfold gdens, Rpower. auto_derive; [repeat split; try lra|]. match goal with |- ?a = ?b => change (@eq R a b) end. field. now split; [|apply Rgt_not_eq].
Qed.
Lemma ur_r_eq a x g : 0 < a -> 0 < x -> sgamma a = Ret g -> ur_r a x = Ret (x * gdens a g x).
Proof.
  intros Ha Hx E. unfold ur_r. rb. rops. repeat rcase; try lra. rewrite E. cbn [bind]. f_equal. unfold gdens.
  rewrite R_pow_pos by assumption. replace a with (a - 1 + 1) at 1 by ring. rewrite Rpower_plus, Rpower_1 by assumption.
  unfold Rdiv. ring.
Qed.
(** The corrected iterate: Newton's step, or Schroeder's second-order step when both t and w t are at most 1/10. *)
Definition ur_next (a g x e : R) : R :=
  let d := gdens a g x in let u := e / d in
  if Rle_dec (Rabs (u / x)) (1 / 10) then
    if Rle_dec (Rabs ((a - 1 - x) / 2 * (u / x))) (1 / 10) then x - u - (a - 1 - x) / x * d / (2 * d) * (u * u)
    else x - u
  else x - u.
Lemma ur_iter_step fuel n a p q x g v w : 0 < a -> 0 < x -> sgamma a = Ret g -> 0 < g ->
  sgamma_lr fuel a x = Ret (Some v) -> sgamma_ur fuel a x = Ret (Some w) ->
  let e := if Rle_dec p (1 / 2) then v - p else q - w in
  ur_iter fuel (S n) a p q x = Ret (Some (ur_next a g x e)) \/ ur_iter fuel (S n) a p q x = ur_iter fuel n a p q (ur_next a g x e).
Proof.
  intros Ha Hx Eg Hg Ev Ew e. cbn [ur_iter]. rewrite (ur_r_eq a x g Ha Hx Eg). cbn [olift bind obind].
  assert (D : 0 < gdens a g x). { unfold gdens. apply Rdiv_lt_0_compat; [apply Rmult_lt_0_compat; apply exp_pos|assumption]. }
  rb. rewrite !lit_R. rops. set (d := gdens a g x) in *.
  assert (T : (if R_leb p (1 / 2) then obind (sgamma_lr fuel a x) (fun v => Ret (Some ((v - p) / (x * d))))
               else obind (sgamma_ur fuel a x) (fun v => Ret (Some ((q - v) / (x * d))))) = Ret (Some (e / d / x))).
  { unfold e, R_leb. destruct (Rle_dec p (1 / 2)); [rewrite Ev|rewrite Ew]; cbn [obind]; f_equal; f_equal; field; lra. }
  rewrite T. cbn [obind]. rb. replace (2 / 1) with 2 by lra.
  assert (N1 : Rabs (e / d / x) <= 1 / 10 -> Rabs ((a - 1 - x) / 2 * (e / d / x)) <= 1 / 10 ->
     x * (1 - (e / d / x + (a - 1 - x) / 2 * (e / d / x) * (e / d / x))) = ur_next a g x e).
  { intros A B. unfold ur_next. fold d. cbv zeta. destruct (Rle_dec (Rabs (e / d / x)) (1 / 10)); [|contradiction]. destruct (Rle_dec (Rabs ((a - 1 - x) / 2 * (e / d / x))) (1 / 10)); [|contradiction]. field. lra. }
  assert (N2 : ~ (Rabs (e / d / x) <= 1 / 10 /\ Rabs ((a - 1 - x) / 2 * (e / d / x)) <= 1 / 10) ->
     x * (1 - e / d / x) = ur_next a g x e).
  { intros A. unfold ur_next. fold d. cbv zeta. destruct (Rle_dec (Rabs (e / d / x)) (1 / 10)); [destruct (Rle_dec (Rabs ((a - 1 - x) / 2 * (e / d / x))) (1 / 10)); [exfalso; apply A; now split|]|]; field; lra. }
  clearbody e. set (t := e / d / x) in *.
  assert (LT : forall u c, u <= c -> R_leb u c = true) by (intros u c L; unfold R_leb; destruct (Rle_dec u c); [reflexivity|contradiction]).
  assert (LF : forall u c, ~ u <= c -> R_leb u c = false) by (intros u c L; unfold R_leb; destruct (Rle_dec u c); [contradiction|reflexivity]).
  destruct (Rle_dec (Rabs t) (1 / 10)) as [A|A]; [rewrite (LT _ _ A); destruct (Rle_dec (Rabs ((a - 1 - x) / 2 * t)) (1 / 10)) as [B|B]; [rewrite (LT _ _ B)|rewrite (LF _ _ B)]|rewrite (LF _ _ A)]; cbn [andb].
  - rewrite (N1 A B). destruct (_ && _)%bool; [left|right]; reflexivity.
  - rewrite N2 by tauto. rewrite Ev, Ew. cbn [obind]. destruct (R_ltb _ _); [left; reflexivity|]. destruct (R_leb (Rabs t) _); [|right; reflexivity].
    destruct (R_leb p _); [destruct (ltb _ _)|destruct (leb _ _)]; try (left; reflexivity); right; reflexivity.
  - rewrite N2 by tauto. rewrite Ev, Ew. cbn [obind]. destruct (R_ltb _ _); [left; reflexivity|]. destruct (R_leb (Rabs t) _); [|right; reflexivity].
    destruct (R_leb p _); [destruct (ltb _ _)|destruct (leb _ _)]; try (left; reflexivity); right; reflexivity.
Qed.
Lemma sbeta_inc_low a b x : 0 < a -> 0 < b -> 0 < x < 1 -> x * (a + b) <= a -> a + b <= 1073741823 ->
  exists k v, 0 <= v /\ (forall fuel, (k <= fuel)%nat -> sbeta_inc fuel x a b = Ret (Some v)) /\
  forall F, incomplete_beta a b F -> Rabs (v - F x) <= 1 / 1000000000000000 * Rmax (x / (1 - x)) (b - 1) * v.
Proof.
  intros Ha Hb Hx H Hab. destruct (sbeta_inc_reg_low a b x Ha Hb Hx ltac:(lra) Hab) as (bt & k & v & Eb & Pb & V0 & Ev & A).
  exists k, (bt * v). split; [apply Rmult_le_pos; lra|]. split.
  - intros fuel Hf. unfold sbeta_inc. rewrite Eb. cbn [olift bind obind]. rewrite (Ev fuel Hf). reflexivity.
  - intros F HF. specialize (A F HF). replace (bt * v - F x) with (bt * (v - F x / bt)) by (field; lra).
    rewrite Rabs_mult, (Rabs_pos_eq bt) by lra.
    replace (1 / 1000000000000000 * Rmax (x / (1 - x)) (b - 1) * (bt * v)) with (bt * (1 / 1000000000000000 * Rmax (x / (1 - x)) (b - 1) * v)) by ring.
    apply Rmult_le_compat_l; lra.
Qed.
Lemma sbeta_inc_high a b x : 0 < a -> 0 < b -> 0 < x < 1 -> a < x * (a + b) -> a + b <= 1073741823 ->
  exists bt k v, sbeta a b = Ret bt /\ v <= bt /\ (forall fuel, (k <= fuel)%nat -> sbeta_inc fuel x a b = Ret (Some v)) /\
  forall F, incomplete_beta b a F -> Rabs ((bt - v) - F (1 - x)) <= 1 / 1000000000000000 * Rmax ((1 - x) / x) (a - 1) * (bt - v).
Proof.
  intros Ha Hb Hx H Hab. destruct (sbeta_inc_reg_high a b x Ha Hb Hx ltac:(lra) Hab) as (bt & k & v & Eb & Pb & V0 & Ev & A).
  exists bt, k, (bt * v). split; [exact Eb|]. split; [rewrite <- (Rmult_1_r bt) at 2; apply Rmult_le_compat_l; lra|]. split.
  - intros fuel Hf. unfold sbeta_inc. rewrite Eb. cbn [olift bind obind]. rewrite (Ev fuel Hf). reflexivity.
  - intros F HF. specialize (A F HF). replace (bt - bt * v - F (1 - x)) with (bt * (1 - v - F (1 - x) / bt)) by (field; lra).
    rewrite Rabs_mult, (Rabs_pos_eq bt) by lra.
    replace (1 / 1000000000000000 * Rmax ((1 - x) / x) (a - 1) * (bt - bt * v)) with (bt * (1 / 1000000000000000 * Rmax ((1 - x) / x) (a - 1) * (1 - v))) by ring.
    apply Rmult_le_compat_l; lra.
Qed.
Lemma ur_iter_newton fuel n a p q x g v w d1 : 0 < a -> 0 < x -> sgamma a = Ret g ->
  sgamma_lr fuel a x = Ret (Some v) -> sgamma_ur fuel a x = Ret (Some w) ->
  let dens := fun y => Rpower y (a - 1) * exp (- y) / g in
  is_derive dens x d1 ->
  let u := (if Rle_dec p (1 / 2) then v - p else q - w) / dens x in
  exists y, (ur_iter fuel (S n) a p q x = Ret (Some y) \/ ur_iter fuel (S n) a p q x = ur_iter fuel n a p q y) /\
  (Rabs (u / x) <= 1 / 10 -> Rabs (u * (d1 / dens x)) <= 1 / 5 -> y = x - u - d1 / (2 * dens x) * (u * u)) /\
  (1 / 10 < Rabs (u / x) \/ 1 / 5 < Rabs (u * (d1 / dens x)) -> y = x - u).
Proof.
  intros Ha Hx Eg Ev Ew dens Hd u.
  assert (Hg : 0 < g) by (destruct (sgamma_pos a Ha) as (g' & E & P); rewrite Eg in E; injection E as <-; exact P).
  pose proof (is_derive_unique _ _ _ Hd) as U1. pose proof (is_derive_unique _ _ _ (gdens_derive a g x Hx ltac:(lra))) as U2.
  change (gdens a g) with dens in U2. rewrite U1 in U2.
  assert (D : 0 < dens x). { unfold dens. apply Rdiv_lt_0_compat; [apply Rmult_lt_0_compat; apply exp_pos|assumption]. }
  pose proof (ur_iter_step fuel n a p q x g v w Ha Hx Eg Hg Ev Ew) as S. cbv zeta in S.
  set (e := if Rle_dec p (1 / 2) then v - p else q - w) in *. exists (ur_next a g x e). split; [exact S|].
  assert (W : u * (d1 / dens x) = 2 * ((a - 1 - x) / 2 * (u / x))) by (rewrite U2; unfold u; field; lra).
  rewrite W, Rabs_mult, (Rabs_pos_eq 2) by lra. unfold ur_next. change (gdens a g) with dens. cbv zeta. fold u.
  split.
  - intros A B. destruct (Rle_dec (Rabs (u / x)) (1 / 10)); [|contradiction].
    destruct (Rle_dec (Rabs ((a - 1 - x) / 2 * (u / x))) (1 / 10)); [|lra]. rewrite U2. reflexivity.
  - intros AB. destruct (Rle_dec (Rabs (u / x)) (1 / 10)); [|reflexivity].
    destruct (Rle_dec (Rabs ((a - 1 - x) / 2 * (u / x))) (1 / 10)); [lra|reflexivity].
Qed.
Lemma ur_inv_eq fuel (a q : R) :
  (sgamma_ur_inv fuel 1 q = Ret (Some (- ln q))) /\
  (forall x, a <> 1 -> ur_start a q = Ret x -> sgamma_ur_inv fuel a q = ur_iter fuel 20 a (1 - q) q x).
Proof.
  split.
  - unfold sgamma_ur_inv. rb. rops. rcase; [reflexivity|lra].
  - intros x N E. unfold sgamma_ur_inv. rb. rops. rcase; [contradiction|]. rewrite E. reflexivity.
Qed.
