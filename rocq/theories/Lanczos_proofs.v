(** Accuracy of Lanczos approximations: a difference equation compared with the gamma function's, with
    a rational function whose size is settled by polynomials with nonnegative coefficients. *)
From Coq Require Import Arith Lia List Bool ZArith Reals Lra Psatz.
From Coquelicot Require Import Coquelicot.
From Verif Require Import Scalar RealOps.
From Verif Require Import Stat_spec Special_spec Continuous_proofs Normal_proofs GammaFun_proofs Stirling_proofs.
Import ListNotations.
Local Open Scope R_scope.

(** ** Integer polynomials, lowest coefficient first *)
Fixpoint pe (p : list Z) (x : R) : R := match p with [] => 0 | a :: p' => IZR a + x * pe p' x end.
Fixpoint padd (p q : list Z) : list Z :=
  match p, q with [], _ => q | _, [] => p | a :: p', b :: q' => (a + b)%Z :: padd p' q' end.
Definition pscale (c : Z) (p : list Z) : list Z := map (Z.mul c) p.
Fixpoint pmul (p q : list Z) : list Z :=
  match p with [] => [] | a :: p' => padd (pscale a q) (0%Z :: pmul p' q) end.
Fixpoint pder (p : list Z) : list Z :=
  match p with [] => [] | _ :: p' => padd p' (0%Z :: pder p') end.
Fixpoint pshift (p : list Z) : list Z :=
  match p with [] => [] | a :: p' => let r := pshift p' in padd [a] (padd r (0%Z :: r)) end.
Definition psub (p q : list Z) : list Z := padd p (pscale (-1) q).
Definition pnn (p : list Z) : bool := forallb (Z.leb 0) p.
Lemma pe_add p : forall q x, pe (padd p q) x = pe p x + pe q x.
Proof.
  induction p as [|a p IH]; intros [|b q] x; cbn [pe padd]; try ring. rewrite IH, plus_IZR. ring.
Qed.
Lemma pe_scale c p x : pe (pscale c p) x = IZR c * pe p x.
Proof. induction p as [|a p IH]; cbn [pe pscale map]; [ring|]. unfold pscale in IH. rewrite IH, mult_IZR. ring. Qed.
Lemma pe_sub p q x : pe (psub p q) x = pe p x - pe q x.
Proof. unfold psub. rewrite pe_add, pe_scale. ring. Qed.
Lemma pe_mul p q x : pe (pmul p q) x = pe p x * pe q x.
Proof. induction p as [|a p IH]; cbn [pe pmul]; [ring|]. rewrite pe_add, pe_scale. cbn [pe]. rewrite IH. ring. Qed.
Lemma pe_shift p x : pe (pshift p) x = pe p (x + 1).
Proof. induction p as [|a p IH]; cbn [pe pshift]; [ring|]. rewrite !pe_add. cbn [pe]. rewrite IH. ring. Qed.
Lemma pe_derive p x : is_derive (pe p) x (pe (pder p) x).
Proof.
  induction p as [|a p IH]; cbn [pe pder].
  - apply (is_derive_const 0 x).
  - rewrite pe_add. cbn [pe]. auto_derive.
    + exists (pe (pder p) x). exact IH.
    + change (Derive (fun x => pe p x) x) with (Derive (pe p) x). rewrite (is_derive_unique _ _ _ IH). ring.
Qed.
Lemma pe_Derive p x : Derive (fun t => pe p t) x = pe (pder p) x.
Proof. apply is_derive_unique. apply pe_derive. Qed.
Lemma pnn_pos p x : pnn p = true -> 0 <= x -> 0 <= pe p x.
Proof.
  intros H Hx. induction p as [|a p IH]; cbn [pe]; [lra|]. cbn in H. apply andb_true_iff in H. destruct H as [A B].
  apply Z.leb_le in A. apply IZR_le in A. specialize (IH B). assert (0 <= x * pe p x) by (apply Rmult_le_pos; assumption). lra.
Qed.
Lemma pnn_le p q x : pnn (psub q p) = true -> 0 <= x -> pe p x <= pe q x.
Proof. intros H Hx. pose proof (pnn_pos _ x H Hx) as P. rewrite pe_sub in P. lra. Qed.

(** ** Functions with small derivative and limit 0 *)
Lemma decay_half (f f' : R -> R) (k : nat) (c s : R) : 0 <= s ->
  (forall z, 0 < z -> is_derive f z (f' z)) -> is_lim f p_infty 0 ->
  (forall z, 0 < z -> f' z <= c * INR (S k) / (z + s) ^ S (S k)) -> forall z, 0 < z -> - (c / (z + s) ^ S k) <= f z.
Proof.
  intros Hs D L B z Hz.
  set (g := fun z => f z + c / (z + s) ^ S k).
  assert (Dg : forall t, 0 < t -> is_derive g t (f' t - c * INR (S k) / (t + s) ^ S (S k))).
  { intros t Ht. unfold g. assert (Pt : 0 < (t + s) ^ S k) by (apply pow_lt; lra). assert (Pt' : 0 < (t + s) ^ k) by (apply pow_lt; lra).
    replace (f' t - c * INR (S k) / (t + s) ^ S (S k)) with (f' t + - (c * INR (S k) / (t + s) ^ S (S k))) by ring.
    apply (is_derive_plus f (fun t => c / (t + s) ^ S k)); [now apply D|].
    auto_derive; [apply Rgt_not_eq; exact Pt|].
    match goal with |- ?a = ?b => change (@eq R a b) end. change (Init.Nat.pred (S k)) with k. rewrite <- !tech_pow_Rmult.
    set (p := (t + s) ^ k) in *. change (match k with 0%nat => 1 | S _ => INR k + 1 end) with (INR (S k)). field. split; lra. }
  assert (Lg : is_lim g p_infty 0).
  { unfold g. replace (Finite 0) with (Finite (0 + 0)) by (f_equal; ring). apply is_lim_plus'; [exact L|].
    apply (is_lim_ext_loc (fun w => c * (/ (w + s)) ^ S k)).
    { exists 0. intros w Hw. rewrite <- Rinv_pow by lra. reflexivity. }
    replace (Finite 0) with (Finite (c * 0 ^ S k)) by (f_equal; cbn; ring).
    apply (is_lim_scal_l (fun w => (/ (w + s)) ^ S k) c p_infty (0 ^ S k)).
    apply (filterlim_comp _ _ _ (fun w => / (w + s)) (fun r => r ^ S k) (Rbar_locally p_infty) (locally 0)); [apply lim_inv_shift|].
    apply (ex_derive_continuous (fun r => r ^ S k)). auto_derive. exact I. }
  assert (Q : Rbar_le 0 (g z)).
  { apply (filterlim_le (F := Rbar_locally p_infty) g (fun _ => g z) 0 (g z)); [|exact Lg|apply filterlim_const].
    exists z. intros y Hy.
    destruct (MVT_gen g z y (fun t => f' t - c * INR (S k) / (t + s) ^ S (S k))) as [x [Hx E]].
    - intros t Ht. rewrite Rmin_left in Ht by lra. apply Dg. lra.
    - intros t Ht. rewrite Rmin_left in Ht by lra. apply continuity_pt_filterlim. apply (ex_derive_continuous g t).
      eexists. apply Dg. lra.
    - rewrite Rmin_left in Hx by lra. pose proof (B x ltac:(lra)).
      assert ((f' x - c * INR (S k) / (x + s) ^ S (S k)) * (y - z) <= 0); [|lra].
      assert (0 <= (c * INR (S k) / (x + s) ^ S (S k) - f' x) * (y - z)) by (apply Rmult_le_pos; lra). lra. }
  cbn in Q. unfold g in Q. lra.
Qed.
Lemma decay (f f' : R -> R) (k : nat) (c s : R) : 0 <= s ->
  (forall z, 0 < z -> is_derive f z (f' z)) -> is_lim f p_infty 0 ->
  (forall z, 0 < z -> Rabs (f' z) <= c * INR (S k) / (z + s) ^ S (S k)) -> forall z, 0 < z -> Rabs (f z) <= c / (z + s) ^ S k.
Proof.
  intros Hs D L B z Hz.
  pose proof (decay_half f f' k c s Hs D L (fun z Hz => Rle_trans _ _ _ (Rle_abs (f' z)) (B z Hz)) z Hz) as A1.
  assert (A2 : - (c / (z + s) ^ S k) <= - f z).
  { apply (decay_half (fun z => - f z) (fun z => - f' z) k c s Hs).
    - intros t Ht. apply (is_derive_opp f t). now apply D.
    - replace (Finite 0) with (Finite (- 0)) by (f_equal; ring). apply (is_lim_opp f p_infty 0). exact L.
    - intros t Ht. specialize (B t Ht). apply Rabs_le_between in B. lra.
    - exact Hz. }
  apply Rabs_le. lra.
Qed.

(** ** The engine *)
Section Engine.
Variables (N : list Z) (d : Z) (b m s e K0 l0 : R) (S : R -> R).
Definition la_n (z : R) := pe N z.
Definition la_n1 (z : R) := pe (pder N) z.
Definition la_n2 (z : R) := pe (pder (pder N)) z.
Definition la_F (z : R) : R := K0 + (z - 1 / 2) * ln (z + b) - z + ln (S z).
Definition la_D (z : R) : R :=
  (z + 1 / 2) * ln (z + 1 + b) - (z - 1 / 2) * ln (z + b) - 1 + ln (la_n (z + 1)) - ln (la_n z) - ln (z + m).
Definition la_D1 (z : R) : R :=
  ln (z + 1 + b) - ln (z + b) - (b + 1 / 2) * (/ (z + 1 + b) - / (z + b)) + la_n1 (z + 1) / la_n (z + 1) - la_n1 z / la_n z - / (z + m).
Definition la_q (z : R) : R := (la_n2 z * la_n z - la_n1 z * la_n1 z) / (la_n z * la_n z).
Definition la_D2 (z : R) : R :=
  / (z + 1 + b) - / (z + b) + (b + 1 / 2) * (/ ((z + 1 + b) * (z + 1 + b)) - / ((z + b) * (z + b)))
  + la_q (z + 1) - la_q z + / ((z + m) * (z + m)).
Hypothesis Hb : 0 <= b.
Hypothesis Hm : 0 <= m.
Hypothesis Hs : 1 <= s.
Hypothesis Hn : forall z, 0 <= z -> 0 < la_n z.
Hypothesis Hd : forall z, 0 <= z -> 0 <= z * la_n1 z <= IZR d * la_n z.
Hypothesis HS : forall z, 0 < z -> ln (S (z + 1)) - ln (S z) = ln (la_n (z + 1)) - ln (la_n z) + ln z - ln (z + m).
Hypothesis Hl : is_lim (fun z => ln (S z)) p_infty l0.
Hypothesis H2 : forall z, 0 < z -> Rabs (la_D2 z) <= 6 * e / (z + s) ^ 4.

Lemma la_F_step z : 0 < z -> la_F (z + 1) - la_F z - ln z = la_D z.
Proof. intros Hz. unfold la_F, la_D. pose proof (HS z Hz). replace (z + 1 - 1 / 2) with (z + 1 / 2) by field. lra. Qed.
Lemma la_D_derive z : 0 < z -> is_derive la_D z (la_D1 z).
Proof.
  intros Hz. pose proof (Hn z ltac:(lra)) as P. pose proof (Hn (z + 1) ltac:(lra)) as P1.
  unfold la_D, la_D1, la_n, la_n1 in *. pose proof (pe_derive N z) as D. pose proof (pe_derive N (z + 1)) as E.
  auto_derive.
  - repeat split; try lra; try exact I; try assumption; eexists; eassumption.
  - rewrite !pe_Derive.
    match goal with |- ?a = ?b => change (@eq R a b) end. field. repeat split; lra.
Qed.
Lemma la_D1_derive z : 0 < z -> is_derive la_D1 z (la_D2 z).
Proof.
  intros Hz. pose proof (Hn z ltac:(lra)) as P. pose proof (Hn (z + 1) ltac:(lra)) as P1.
  unfold la_D1, la_D2, la_q, la_n, la_n1, la_n2 in *. pose proof (pe_derive N z) as D. pose proof (pe_derive N (z + 1)) as E.
  pose proof (pe_derive (pder N) z) as D'. pose proof (pe_derive (pder N) (z + 1)) as E'.
  auto_derive.
  - repeat split; try lra; try exact I; try assumption; eexists; eassumption.
  - rewrite !pe_Derive.
    match goal with |- ?a = ?b => change (@eq R a b) end. field. repeat split; lra.
Qed.
Lemma la_ratio_lim : is_lim (fun z => la_n1 z / la_n z) p_infty 0.
Proof.
  apply (is_lim_le_le_loc (fun _ => 0) (fun z => 0 + IZR d * / (z + 0))); [|apply is_lim_const|apply lim_scaled_inv].
  exists 0. intros z Hz. pose proof (Hn z ltac:(lra)) as P. pose proof (Hd z ltac:(lra)) as [Q1 Q2].
  rewrite Rplus_0_l, Rplus_0_r. split.
  - apply Rdiv_le_0_compat; [|assumption]. apply Rmult_le_reg_l with z; lra.
  - apply Rmult_le_reg_r with (la_n z * z); [apply Rmult_lt_0_compat; assumption|].
    replace (la_n1 z / la_n z * (la_n z * z)) with (z * la_n1 z) by (field; lra).
    replace (IZR d * / z * (la_n z * z)) with (IZR d * la_n z) by (field; lra). assumption.
Qed.
Lemma lim_shift1 (f : R -> R) (l : Rbar) : is_lim f p_infty l -> is_lim (fun z => f (z + 1)) p_infty l.
Proof.
  intros H. apply (is_lim_comp f (fun x => x + 1) p_infty l p_infty); [exact H| |exists 0; intros; discriminate].
  apply (is_lim_plus (fun x => x) (fun _ => 1) p_infty p_infty 1 p_infty); [apply is_lim_id|apply is_lim_const|reflexivity].
Qed.
Lemma la_lnratio_lim : is_lim (fun z => ln (la_n (z + 1)) - ln (la_n z)) p_infty 0.
Proof.
  apply (is_lim_le_le_loc (fun _ => 0) (fun z => 0 + IZR d * / (z + 0))); [|apply is_lim_const|apply lim_scaled_inv].
  exists 0. intros z Hz. rewrite Rplus_0_l, Rplus_0_r.
  destruct (MVT_gen (fun t => ln (la_n t)) z (z + 1) (fun t => la_n1 t / la_n t)) as [c [Hc E]].
  - intros t Ht. rewrite Rmin_left in Ht by lra. pose proof (Hn t ltac:(lra)) as P. unfold la_n, la_n1 in *.
    pose proof (pe_derive N t) as D. auto_derive; [split; [eexists; exact D|split; [assumption|exact I]]|].
    rewrite !pe_Derive. match goal with |- ?a = ?b => change (@eq R a b) end. field. lra.
  - intros t Ht. rewrite Rmin_left in Ht by lra. pose proof (Hn t ltac:(lra)) as P. unfold la_n, la_n1 in *.
    pose proof (pe_derive N t) as D. apply continuity_pt_filterlim. apply (ex_derive_continuous (fun t => ln (pe N t)) t).
    auto_derive. split; [eexists; exact D|split; [assumption|exact I]].
  - rewrite Rmin_left, Rmax_right in Hc by lra. replace (z + 1 - z) with 1 in E by ring. rewrite Rmult_1_r in E.
    rewrite E. pose proof (Hn c ltac:(lra)) as P. pose proof (Hd c ltac:(lra)) as [Q1 Q2].
    assert (A : 0 <= la_n1 c) by (apply Rmult_le_reg_l with c; lra). split.
    + apply Rdiv_le_0_compat; assumption.
    + apply Rmult_le_reg_r with (la_n c * z); [apply Rmult_lt_0_compat; assumption|].
      replace (la_n1 c / la_n c * (la_n c * z)) with (z * la_n1 c) by (field; lra).
      replace (IZR d * / z * (la_n c * z)) with (IZR d * la_n c) by (field; lra).
      assert (z * la_n1 c <= c * la_n1 c) by (apply Rmult_le_compat_r; lra). lra.
Qed.
Lemma lim_ln_pair (u v : R) : 0 <= u -> 0 <= v -> is_lim (fun z => ln (z + u) - ln (z + v)) p_infty 0.
Proof.
  intros Hu Hv. apply (is_lim_ext (fun z => (ln (z + u) - ln z) - (ln (z + v) - ln z))); [intros z; ring|].
  replace (Finite 0) with (Finite (0 - 0)) by (f_equal; ring). apply is_lim_minus'; now apply lim_ln_diff0.
Qed.
Lemma la_D1_lim : is_lim la_D1 p_infty 0.
Proof.
  apply (is_lim_ext (fun z => (ln (z + (1 + b)) - ln (z + b)) - (b + 1 / 2) * (/ (z + (1 + b)) - / (z + b))
           + la_n1 (z + 1) / la_n (z + 1) - la_n1 z / la_n z - / (z + m))).
  { intros z. unfold la_D1. replace (z + 1 + b) with (z + (1 + b)) by ring. reflexivity. }
  replace (Finite 0) with (Finite (0 - (b + 1 / 2) * (0 - 0) + 0 - 0 - 0)) by (f_equal; ring).
  apply is_lim_minus'; [apply is_lim_minus'; [apply is_lim_plus'; [apply is_lim_minus'|]|]|].
  - apply lim_ln_pair; lra.
  - apply (is_lim_scal_l (fun z => / (z + (1 + b)) - / (z + b)) (b + 1 / 2) p_infty (0 - 0)). apply is_lim_minus'; apply lim_inv_shift.
  - apply (lim_shift1 (fun z => la_n1 z / la_n z)). apply la_ratio_lim.
  - apply la_ratio_lim.
  - apply lim_inv_shift.
Qed.
Lemma lim_ln_diff_pair (c u : R) : 0 <= u -> is_lim (fun w => (w + c) * (ln (w + (1 + u)) - ln (w + u))) p_infty 1.
Proof.
  intros Hu. apply (is_lim_ext (fun w => (w + c) * (ln (w + (1 + u)) - ln w) - (w + c) * (ln (w + u) - ln w))); [intros w; ring|].
  replace (Finite 1) with (Finite (1 + u - u)) by (f_equal; ring). apply is_lim_minus'; apply lim_ln_diff; lra.
Qed.
Lemma la_D_lim : is_lim la_D p_infty 0.
Proof.
  apply (is_lim_ext (fun z => (z + 1 / 2) * (ln (z + (1 + b)) - ln (z + b)) + (ln (z + b) - ln (z + m)) - 1
           + (ln (la_n (z + 1)) - ln (la_n z)))).
  { intros z. unfold la_D. replace (z + 1 + b) with (z + (1 + b)) by ring. field. }
  replace (Finite 0) with (Finite (1 + 0 - 1 + 0)) by (f_equal; ring).
  apply is_lim_plus'; [apply is_lim_minus'; [apply is_lim_plus'|]|].
  - now apply lim_ln_diff_pair.
  - now apply lim_ln_pair.
  - apply is_lim_const.
  - apply la_lnratio_lim.
Qed.
Lemma la_D_bound z : 0 < z -> Rabs (la_D z) <= e / (z + s) ^ 2.
Proof.
  apply (decay la_D la_D1 1 e s ltac:(lra)); [apply la_D_derive|apply la_D_lim|].
  intros t Ht. replace (e * INR 2) with (2 * e) by (cbn; ring).
  apply (decay la_D1 la_D2 2 (2 * e) s ltac:(lra)); [apply la_D1_derive|apply la_D1_lim| |exact Ht].
  intros u Hu. replace (2 * e * INR 3) with (6 * e) by (cbn; ring). now apply H2.
Qed.
(** Telescoping. *)
Lemma la_e_pos : 0 <= e.
Proof.
  pose proof (la_D_bound 1 ltac:(lra)) as B. pose proof (Rabs_pos (la_D 1)).
  assert (0 < (1 + s) ^ 2) by (apply pow_lt; lra).
  destruct (Rle_dec 0 e); [assumption|]. assert (e / (1 + s) ^ 2 < 0); [|lra].
  unfold Rdiv. assert (0 < / (1 + s) ^ 2) by now apply Rinv_0_lt_compat. nra.
Qed.
Lemma la_tel z g n : 0 < z -> 0 < g ->
  Rabs ((la_F (z + INR n) - ln (rising z n * g)) - (la_F z - ln g)) <= e * (/ (z + s - 1) - / (z + INR n + s - 1)).
Proof.
  intros Hz Hg. pose proof la_e_pos as He. induction n as [|n IH].
  - cbn [rising]. change (INR 0) with 0. rewrite Rplus_0_r, Rmult_1_l. rewrite Rminus_eq_0, Rabs_R0. lra.
  - rewrite S_INR. cbn [rising]. pose proof (pos_INR n). pose proof (rising_pos z n Hz).
    pose proof (la_F_step (z + INR n) ltac:(lra)) as E. pose proof (la_D_bound (z + INR n) ltac:(lra)) as B.
    replace (z + (INR n + 1)) with (z + INR n + 1) by ring.
    rewrite (ln_mult (rising z n * (z + INR n)) g) by (try assumption; apply Rmult_lt_0_compat; lra).
    rewrite (ln_mult (rising z n) (z + INR n)) by lra. rewrite (ln_mult (rising z n) g) in IH by assumption.
    set (w := z + INR n) in *.
    replace (la_F (w + 1) - (ln (rising z n) + ln w + ln g) - (la_F z - ln g))
      with ((la_F w - (ln (rising z n) + ln g) - (la_F z - ln g)) + la_D w) by (rewrite <- E; ring).
    eapply Rle_trans; [apply Rabs_triang|].
    assert (B2 : e / (w + s) ^ 2 <= e * (/ (w + s - 1) - / (w + 1 + s - 1))).
    { unfold Rdiv. apply Rmult_le_compat_l; [assumption|].
      replace (/ (w + s - 1) - / (w + 1 + s - 1)) with (/ ((w + s - 1) * (w + s))) by (unfold w; field; lra).
      apply Rinv_le_contravar; [apply Rmult_lt_0_compat; unfold w; lra|]. cbn [pow]. rewrite Rmult_1_r.
      apply Rmult_le_compat_r; unfold w; lra. }
    lra.
Qed.
Lemma la_F_stir : is_lim (fun z => la_F z - stir z) p_infty (K0 + b + l0).
Proof.
  apply (is_lim_ext (fun z => K0 + (z + - (1 / 2)) * (ln (z + b) - ln z) + ln (S z))).
  { intros z. unfold la_F, stir. ring. }
  apply is_lim_plus'; [|exact Hl]. apply is_lim_plus'; [apply is_lim_const|now apply lim_ln_diff].
Qed.
Theorem la_accuracy z g : 0 < z -> euler_gamma z g ->
  Rabs (la_F z - ln g - (K0 + b + l0 - 1 / 2 * ln (2 * PI))) <= e / (z + s - 1).
Proof.
  intros Hz Hg. pose proof (euler_gamma_pos _ _ Hg) as Pg. pose proof la_e_pos as He.
  set (C := K0 + b + l0 - 1 / 2 * ln (2 * PI)).
  assert (L : is_lim_seq (fun n => (la_F (z + INR n) - ln (rising z n * g))) C).
  { apply (is_lim_seq_ext (fun n => (la_F (z + INR n) - stir (z + INR n)) - st_u z g n)); [intros n; unfold st_u; ring|].
    apply is_lim_seq_minus'; [|now apply stirling].
    apply (seq_of_lim (fun z => la_F z - stir z) (K0 + b + l0) z la_F_stir). }
  assert (L2 : is_lim_seq (fun n => Rabs ((la_F (z + INR n) - ln (rising z n * g)) - (la_F z - ln g))) (Rabs (C - (la_F z - ln g)))).
  { apply (is_lim_seq_abs _ (Finite (C - (la_F z - ln g)))). apply is_lim_seq_minus'; [exact L|apply is_lim_seq_const]. }
  rewrite Rabs_minus_sym.
  assert (Q : Rbar_le (Rabs (C - (la_F z - ln g))) (e / (z + s - 1))); [|exact Q].
  apply (is_lim_seq_le (fun n => Rabs ((la_F (z + INR n) - ln (rising z n * g)) - (la_F z - ln g))) (fun _ => e / (z + s - 1))); [|exact L2|apply is_lim_seq_const].
  intros n. eapply Rle_trans; [now apply la_tel|]. pose proof (pos_INR n).
  assert (0 < / (z + INR n + s - 1)) by (apply Rinv_0_lt_compat; lra).
  assert (0 <= e * / (z + INR n + s - 1)) by (apply Rmult_le_pos; lra). unfold Rdiv. lra.
Qed.
End Engine.
