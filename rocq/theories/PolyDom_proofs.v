(** Integer polynomials: translation by a rational number, values at rational points, domination on
    an interval by comparing coefficients; functions bounded through their derivatives. *)
From Coq Require Import Arith Lia List Bool ZArith Reals Lra Psatz.
From Coquelicot Require Import Coquelicot.
From Verif Require Import Lanczos_proofs LanczosAcc_proofs.
Import ListNotations.
Local Open Scope R_scope.

(** ** Translation *)
Fixpoint psh (n d : Z) (p : list Z) : list Z :=
  match p with
  | [] => []
  | c :: p' => padd [(c * d ^ Z.of_nat (length p'))%Z] (pmul [n; d] (psh n d p'))
  end.
Lemma psh_ok n d p u : (0 < d)%Z -> IZR d * pe (psh n d p) u = IZR d ^ length p * pe p (IZR n / IZR d + u).
Proof.
  intros Hd. pose proof (IZR_lt _ _ Hd) as Hr. induction p as [|c p IH]; [cbn; ring|].
  cbn [psh]. rewrite pe_add, pe_mul. cbn [pe length]. rewrite mult_IZR, <- pow_IZR.
  replace (IZR d * (IZR c * IZR d ^ length p + u * 0 + (IZR n + u * (IZR d + u * 0)) * pe (psh n d p) u))
    with (IZR d * IZR c * IZR d ^ length p + (IZR n + u * IZR d) * (IZR d * pe (psh n d p) u)) by ring.
  rewrite IH. cbn [pow]. field. lra.
Qed.
Definition ppad (l : nat) (p : list Z) : list Z := p ++ repeat 0%Z (l - length p).
Lemma pe_zeros k x : pe (repeat 0%Z k) x = 0.
Proof. induction k as [|k IH]; cbn [repeat pe]; [reflexivity|]. rewrite IH. ring. Qed.
Lemma pe_pad l p x : pe (ppad l p) x = pe p x.
Proof.
  unfold ppad. generalize (l - length p)%nat as k. intros k. induction p as [|a p IH]; cbn [app pe]; [apply pe_zeros|]. now rewrite IH.
Qed.
Lemma pad_len l p : (length p <= l)%nat -> length (ppad l p) = l.
Proof. intros. unfold ppad. rewrite app_length, repeat_length. lia. Qed.

(** ** Values at rational points *)
Fixpoint zval (n d : Z) (p : list Z) : Z :=
  match p with [] => 0%Z | c :: p' => (c * d ^ Z.of_nat (length p') + n * zval n d p')%Z end.
Lemma zval_ok n d p : (0 < d)%Z -> IZR d * IZR (zval n d p) = IZR d ^ length p * pe p (IZR n / IZR d).
Proof.
  intros Hd. pose proof (IZR_lt _ _ Hd) as Hr. induction p as [|c p IH]; [cbn; ring|].
  cbn [zval pe length]. rewrite plus_IZR, !mult_IZR, <- pow_IZR.
  replace (IZR d * (IZR c * IZR d ^ length p + IZR n * IZR (zval n d p)))
    with (IZR d * IZR c * IZR d ^ length p + IZR n * (IZR d * IZR (zval n d p))) by ring.
  rewrite IH. cbn [pow]. field. lra.
Qed.
(** lo/e <= p(n/d) / q(n/d) <= hi/e *)
Definition rat_ck (p q : list Z) (n d lo hi e : Z) : bool :=
  let l := Nat.max (length p) (length q) in
  let a := zval n d (ppad l p) in let b := zval n d (ppad l q) in
  Z.ltb 0 d && Z.ltb 0 e && Z.ltb 0 b && Z.leb (lo * b) (a * e) && Z.leb (a * e) (hi * b).
Lemma rat_bounds p q n d lo hi e : rat_ck p q n d lo hi e = true ->
  0 < pe q (IZR n / IZR d) /\ IZR lo / IZR e <= pe p (IZR n / IZR d) / pe q (IZR n / IZR d) <= IZR hi / IZR e.
Proof.
  unfold rat_ck. set (l := Nat.max (length p) (length q)).
  rewrite !andb_true_iff, !Z.ltb_lt, !Z.leb_le. intros [[[[Hd He] Hb] H1] H2].
  pose proof (zval_ok n d (ppad l p) Hd) as A. pose proof (zval_ok n d (ppad l q) Hd) as B.
  rewrite pad_len, pe_pad in A by (unfold l; lia). rewrite pad_len, pe_pad in B by (unfold l; lia).
  apply IZR_lt in Hd. apply IZR_lt in He. apply IZR_lt in Hb. apply IZR_le in H1. apply IZR_le in H2. rewrite !mult_IZR in H1, H2.
  set (a := IZR (zval n d (ppad l p))) in *. set (b := IZR (zval n d (ppad l q))) in *.
  set (P := pe p (IZR n / IZR d)) in *. set (Q := pe q (IZR n / IZR d)) in *.
  assert (K : 0 < IZR d ^ l) by (apply pow_lt; assumption). set (k := IZR d ^ l) in *.
  assert (HQ : 0 < Q). { apply Rmult_lt_reg_l with k; [assumption|]. rewrite <- B, Rmult_0_r. now apply Rmult_lt_0_compat. }
  split; [assumption|].
  assert (E : P / Q = a / b).
  { replace P with (IZR d * a / k) by (rewrite A; field; lra). replace Q with (IZR d * b / k) by (rewrite B; field; lra).
    field. repeat split; lra. }
  rewrite E. split.
  - apply Rmult_le_reg_r with (IZR e * b); [now apply Rmult_lt_0_compat|].
    replace (IZR lo / IZR e * (IZR e * b)) with (IZR lo * b) by (field; lra). replace (a / b * (IZR e * b)) with (a * IZR e) by (field; lra). lra.
  - apply Rmult_le_reg_r with (IZR e * b); [now apply Rmult_lt_0_compat|].
    replace (IZR hi / IZR e * (IZR e * b)) with (IZR hi * b) by (field; lra). replace (a / b * (IZR e * b)) with (a * IZR e) by (field; lra). lra.
Qed.

(** ** Domination on an interval *)
Lemma pe_abs p x : 0 <= x -> Rabs (pe p x) <= pe (map Z.abs p) x.
Proof.
  intros Hx. induction p as [|a p IH]; cbn [map pe]; [rewrite Rabs_R0; lra|].
  eapply Rle_trans; [apply Rabs_triang|]. rewrite abs_IZR, Rabs_mult, (Rabs_pos_eq x) by assumption.
  apply Rplus_le_compat_l. now apply Rmult_le_compat_l.
Qed.
Lemma pe_mono p x y : pnn p = true -> 0 <= x <= y -> pe p x <= pe p y.
Proof.
  intros H Hx. induction p as [|a p IH]; cbn [pe]; [lra|]. cbn in H. apply andb_true_iff in H. destruct H as [H0 H].
  apply Rplus_le_compat_l. apply Rmult_le_compat; try lra; [now apply pnn_pos|now apply IH].
Qed.
Lemma pnn_abs p : pnn (map Z.abs p) = true.
Proof. apply forallb_forall. intros a Ha. apply in_map_iff in Ha. destruct Ha as [b [<- _]]. apply Z.leb_le. apply Z.abs_nonneg. Qed.
(** e |num| <= den on [0, yn/yd]: coefficientwise below degree m, all higher terms against the m-th. *)
Fixpoint pdomt (m : nat) (yn yd e : Z) (num den : list Z) : bool :=
  match m, den with
  | _, [] => forallb (Z.eqb 0) num
  | O, b :: den' => Z.leb (e * zval yn yd (map Z.abs num)) (b * yd ^ Z.of_nat (pred (length num))) && pnn den'
  | S m', b :: den' => match num with
      | [] => pnn den
      | a :: num' => Z.leb (e * Z.abs a) b && pdomt m' yn yd e num' den'
      end
  end.
Lemma pdomt_ok m : forall yn yd e num den u, (0 < yd)%Z -> (0 <= e)%Z -> pdomt m yn yd e num den = true ->
  0 <= u <= IZR yn / IZR yd -> IZR e * Rabs (pe num u) <= pe den u.
Proof.
  assert (Z0 : forall num u, forallb (Z.eqb 0) num = true -> pe num u = 0).
  { induction num as [|a num IH]; intros u H; [reflexivity|]. cbn [forallb] in H. apply andb_true_iff in H. destruct H as [H1 H2].
    apply Z.eqb_eq in H1. cbn [pe]. rewrite <- H1, IH by assumption. ring. }
  induction m as [|m IH]; intros yn yd e num den u Hy He H Hu; destruct den as [|b den]; cbn [pdomt] in H.
  - rewrite Z0 by assumption. rewrite Rabs_R0. cbn. lra.
  - apply andb_true_iff in H. destruct H as [H1 H2]. apply Z.leb_le in H1. pose proof (pnn_pos den u H2 (proj1 Hu)) as P.
    cbn [pe]. assert (0 <= u * pe den u) by (apply Rmult_le_pos; lra).
    pose proof (IZR_lt _ _ Hy) as Hr. apply IZR_le in He.
    destruct num as [|a num].
    { cbn [pe]. rewrite Rabs_R0. cbn in H1. apply IZR_le in H1. rewrite !mult_IZR in H1. cbn in H1. nra. }
    set (q := a :: num) in *. pose proof (zval_ok yn yd (map Z.abs q) Hy) as Z1. rewrite map_length in Z1.
    pose proof (pe_abs q u (proj1 Hu)) as A1. pose proof (pe_mono _ u (IZR yn / IZR yd) (pnn_abs q) Hu) as A2.
    apply IZR_le in H1. rewrite !mult_IZR, <- pow_IZR in H1.
    assert (L : length q = S (pred (length q))) by reflexivity. rewrite L in Z1. cbn [pow] in Z1.
    set (k := IZR yd ^ pred (length q)) in *. assert (K : 0 < k) by (apply pow_lt; assumption).
    set (T := pe (map Z.abs q) (IZR yn / IZR yd)) in *.
    assert (Z2 : IZR (zval yn yd (map Z.abs q)) = k * T) by (apply Rmult_eq_reg_l with (IZR yd); lra).
    rewrite Z2 in H1. assert (HT : IZR e * T <= IZR b) by (apply Rmult_le_reg_r with k; lra).
    assert (IZR e * Rabs (pe q u) <= IZR e * T) by (apply Rmult_le_compat_l; lra). lra.
  - rewrite Z0 by assumption. rewrite Rabs_R0. cbn. lra.
  - apply IZR_le in He as He'. destruct num as [|a num].
    + cbn [pe]. rewrite Rabs_R0, Rmult_0_r. apply (pnn_pos (b :: den)); [assumption|lra].
    + apply andb_true_iff in H. destruct H as [H1 H2]. apply Z.leb_le, IZR_le in H1. rewrite mult_IZR, abs_IZR in H1.
      specialize (IH yn yd e num den u Hy He H2 Hu). cbn [pe].
      apply Rle_trans with (IZR e * (Rabs (IZR a) + u * Rabs (pe num u))).
      * apply Rmult_le_compat_l; [assumption|]. eapply Rle_trans; [apply Rabs_triang|]. rewrite Rabs_mult, (Rabs_pos_eq u) by lra. lra.
      * assert (u * (IZR e * Rabs (pe num u)) <= u * pe den u) by (apply Rmult_le_compat_l; lra). lra.
Qed.
(** The pieces (n, d, yn, yd, m): e |num| <= den on [n/d, n/d + yn/yd]. *)
Definition piece_ck (e : Z) (num den : list Z) (c : Z * Z * Z * Z * nat) : bool :=
  let '(n, d, yn, yd, m) := c in
  let l := Nat.max (length num) (length den) in
  Z.ltb 0 d && Z.ltb 0 yd && Z.leb 0 e && pdomt m yn yd e (psh n d (ppad l num)) (psh n d (ppad l den)).
Lemma piece_ok e num den n d yn yd m x : piece_ck e num den (n, d, yn, yd, m) = true ->
  IZR n / IZR d <= x <= IZR n / IZR d + IZR yn / IZR yd -> IZR e * Rabs (pe num x) <= pe den x.
Proof.
  unfold piece_ck. set (l := Nat.max (length num) (length den)).
  rewrite !andb_true_iff, !Z.ltb_lt, Z.leb_le. intros [[[Hd Hy] He] H] Hx.
  pose proof (pdomt_ok m yn yd e _ _ (x - IZR n / IZR d) Hy He H ltac:(lra)) as K.
  pose proof (psh_ok n d (ppad l num) (x - IZR n / IZR d) Hd) as A. pose proof (psh_ok n d (ppad l den) (x - IZR n / IZR d) Hd) as B.
  replace (IZR n / IZR d + (x - IZR n / IZR d)) with x in A, B by ring.
  rewrite pad_len, pe_pad in A by (unfold l; lia). rewrite pad_len, pe_pad in B by (unfold l; lia).
  apply IZR_lt in Hd. assert (K1 : 0 < IZR d ^ l) by (apply pow_lt; assumption). set (k := IZR d ^ l) in *.
  set (a := pe (psh n d (ppad l num)) (x - IZR n / IZR d)) in *. set (b := pe (psh n d (ppad l den)) (x - IZR n / IZR d)) in *.
  assert (Q : 0 < k / IZR d) by (apply Rdiv_lt_0_compat; assumption).
  apply Rmult_le_reg_l with (k / IZR d); [assumption|].
  replace (k / IZR d * (IZR e * Rabs (pe num x))) with (IZR e * (k / IZR d * Rabs (pe num x))) by ring.
  rewrite <- (Rabs_pos_eq (k / IZR d)) at 1 by lra. rewrite <- Rabs_mult.
  replace (k / IZR d * pe num x) with a by (apply Rmult_eq_reg_l with (IZR d); [rewrite A; field; lra|lra]).
  replace (k / IZR d * pe den x) with b by (apply Rmult_eq_reg_l with (IZR d); [rewrite B; field; lra|lra]). exact K.
Qed.

(** ** Bounds through derivatives *)
Lemma dom_deriv (f f' m m' : R -> R) lo hi : lo <= hi ->
  (forall s, lo <= s <= hi -> is_derive f s (f' s)) -> (forall s, lo <= s <= hi -> is_derive m s (m' s)) ->
  (forall s, lo <= s <= hi -> Rabs (f' s) <= m' s) -> Rabs (f hi - f lo) <= m hi - m lo.
Proof.
  intros L Df Dm B.
  assert (U : forall sg, (sg = 1 \/ sg = -1) -> sg * (f hi - f lo) <= m hi - m lo).
  { intros sg Hs.
    assert (D : forall s, lo <= s <= hi -> is_derive (fun s => m s - sg * f s) s (m' s - sg * f' s)).
    { intros s Hs'. apply (is_derive_minus m (fun s => sg * f s)); [now apply Dm|]. apply (is_derive_scal f s sg). now apply Df. }
    destruct (Rle_lt_or_eq_dec _ _ L) as [L'|<-]; [|lra].
    destruct (MVT_gen (fun s => m s - sg * f s) lo hi (fun s => m' s - sg * f' s)) as [c [Hc E]].
    - rewrite Rmin_left, Rmax_right by lra. intros s Hs'. apply D. lra.
    - rewrite Rmin_left, Rmax_right by lra. intros s Hs'. apply continuity_pt_filterlim.
      apply (ex_derive_continuous (fun s => m s - sg * f s) s). eexists. now apply D.
    - rewrite Rmin_left, Rmax_right in Hc by lra. specialize (B c Hc).
      assert (0 <= m' c - sg * f' c).
      { pose proof (Rle_abs (f' c)). pose proof (Rle_abs (- f' c)). rewrite Rabs_Ropp in *. destruct Hs as [-> | ->]; lra. }
      assert (0 <= (m' c - sg * f' c) * (hi - lo)) by (apply Rmult_le_pos; lra). lra. }
  pose proof (U 1 (or_introl eq_refl)). pose proof (U (-1) (or_intror eq_refl)).
  apply Rabs_le. lra.
Qed.
Lemma exp_small g b : Rabs g <= b -> b <= 1 / 100 -> Rabs (exp g - 1) <= 51 / 50 * b.
Proof.
  intros Hg Hb. pose proof (Rle_abs g). pose proof (Rle_abs (- g)). rewrite Rabs_Ropp in *. pose proof (exp_ineq1_le g).
  apply Rabs_le. split; [lra|].
  pose proof (exp_ineq1_le (- g)) as K. rewrite exp_Ropp in K. pose proof (exp_pos g).
  assert (exp g * (1 - g) <= 1).
  { apply Rmult_le_reg_r with (/ exp g); [now apply Rinv_0_lt_compat|]. replace (exp g * (1 - g) * / exp g) with (1 - g) by (field; lra). lra. }
  nra.
Qed.
Lemma ln_small x b : Rabs (x - 1) <= b -> b <= 1 / 100 -> Rabs (ln x) <= 51 / 50 * b.
Proof.
  intros Hg Hb. pose proof (Rle_abs (x - 1)). pose proof (Rle_abs (- (x - 1))). rewrite Rabs_Ropp in *.
  assert (0 < x) by lra.
  pose proof (exp_ineq1_le (ln x)) as K1. rewrite exp_ln in K1 by assumption.
  pose proof (exp_ineq1_le (- ln x)) as K2. rewrite exp_Ropp, exp_ln in K2 by assumption.
  apply Rabs_le. split; [|lra].
  assert (/ x <= 1 + 51 / 50 * b); [|lra].
  apply Rmult_le_reg_r with x; [assumption|]. rewrite Rinv_l by lra. nra.
Qed.
