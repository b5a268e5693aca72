(** Proofs about polynomial division, reduction, differentiation and integration. *)
From Coq Require Import Arith List Bool Lia Ring Reals Lra.
From Verif Require Import Outcome Scalar RealOps Approx_model Matrix_spec Poly_model Poly_spec Vector_proofs Sums Poly_proofs.
Import ListNotations.
Local Open Scope nat_scope.

Section Reduce.
Context {T : Type} {O : Ops T}.

Lemma removelast_firstn_all (l : list T) : removelast l = firstn (length l - 1) l.
Proof. rewrite removelast_firstn_len. f_equal. lia. Qed.

Lemma reduce_loop_ok eps : forall i (p : list T), i + 1 <= length p ->
  (forall j, i < j < length p -> negligible eps (coefn p j)) ->
  exists k, 1 <= k <= i + 1 /\ reduce_loop eps i (firstn (i + 1) p) = Ret (firstn k p) /\
    (forall j, k <= j < length p -> negligible eps (coefn p j)) /\ (k = 1 \/ ~ negligible eps (coefn p (k - 1))).
Proof.
  induction i as [|i IH]; intros p Hl Hn.
  - exists 1. split; [lia|]. split; [reflexivity|]. split; [intros j Hj; apply Hn; lia|left; reflexivity].
  - cbn [reduce_loop].
    assert (Hv : vget (firstn (S i + 1) p) (S i) = Ret (coefn p (S i))).
    { rewrite (vget_ok _ _ zero) by (rewrite firstn_length; lia). f_equal. unfold coefn.
      rewrite <- (firstn_skipn (S i + 1) p) at 2. rewrite app_nth1 by (rewrite firstn_length; lia). reflexivity. }
    rewrite Hv. cbn [bind]. destruct (sabs_diff_eq (coefn p (S i)) zero eps) eqn:E.
    + replace (removelast (firstn (S i + 1) p)) with (firstn (i + 1) p).
      2:{ rewrite removelast_firstn_all, firstn_firstn, firstn_length. f_equal. lia. }
      destruct (IH p) as (k & Hk & Er & Hd & Ht); [lia| |].
      * intros j Hj. destruct (Nat.eq_dec j (S i)); [subst j; exact E|apply Hn; lia].
      * exists k. split; [lia|]. split; [exact Er|]. split; assumption.
    + exists (S i + 1). split; [lia|]. split; [reflexivity|]. split; [intros j Hj; apply Hn; lia|].
      right. replace (S i + 1 - 1) with (S i) by lia. unfold negligible. unfold sabs_diff_eq in E. rewrite E. discriminate.
Qed.

Lemma reduce_coef_ok eps (p : list T) : p <> [] -> exists s, reduce_coef eps p = Ret s /\ pfrom_coef s = Ret s /\ reduced eps p s.
Proof.
  intros Hp. assert (Lp : 0 < length p) by (destruct p; [congruence|cbn; lia]).
  destruct (reduce_loop_ok eps (length p - 1) p) as (k & Hk & E & Hd & Ht); [lia|intros; lia|].
  replace (firstn (length p - 1 + 1) p) with p in E by (symmetry; apply firstn_all2; lia).
  exists (firstn k p). split; [exact E|]. split.
  - apply (pfrom_coef_len _ (k - 1)). rewrite firstn_length. lia.
  - exists k. split; [lia|]. split; [reflexivity|]. split; assumption.
Qed.

Lemma coefn_firstn k (p : list T) i : coefn (firstn k p) i = if i <? k then coefn p i else zero.
Proof.
  unfold coefn. destruct (Nat.ltb_spec i k).
  - revert k H; revert i. induction p as [|a p IH]; intros i k H; [rewrite firstn_nil; reflexivity|].
    destruct k; [lia|]. destruct i; [reflexivity|]. cbn. apply IH. lia.
  - apply nth_overflow. rewrite firstn_length. lia.
Qed.

Lemma reduced_coef eps (p s : list T) : reduced eps p s ->
  forall i, coefn s i = coefn p i \/ (coefn s i = zero /\ negligible eps (coefn p i)).
Proof.
  intros (k & Hk & -> & Hd & _) i. rewrite coefn_firstn. destruct (Nat.ltb_spec i k); [left; reflexivity|].
  destruct (Nat.lt_ge_cases i (length p)).
  - right. split; [reflexivity|]. apply Hd. lia.
  - left. symmetry. apply coefn_out. assumption.
Qed.

Lemma reduced_same eps (p s : list T) : exact_eps eps -> reduced eps p s -> same_poly s p.
Proof.
  intros He Hr i. destruct (reduced_coef _ _ _ Hr i) as [H|[H1 H2]]; [exact H|]. rewrite H1. symmetry. apply He. exact H2.
Qed.

Lemma reduced_kept eps (p s : list T) : p <> [] -> ~ negligible eps (coefn p (length p - 1)) -> reduced eps p s -> s = p.
Proof.
  intros Hp Hn (k & Hk & -> & Hd & _). destruct (Nat.eq_dec k (length p)); [apply firstn_all2; lia|].
  exfalso. apply Hn. apply Hd. lia.
Qed.
End Reduce.

Section Div.
Context {T : Type} {O : Ops T} (F : FieldLaws O).
Let L : RingLaws O := fl_ring O F.
Add Ring ringPolyDiv : (rl_ring O L).

Definition gconv (n : nat) (h : nat -> T) (q : list T) (k : nat) : T :=
  sumn n (fun j => if (j <=? k) && (k - j <? length q) then mul (h j) (coefn q (k - j)) else zero).

Lemma gconv_upd n h q k i c : i < n -> h i = zero ->
  gconv n (upd1 h i c) q k = add (gconv n h q k) (if (i <=? k) && (k - i <? length q) then mul c (coefn q (k - i)) else zero).
Proof.
  intros Hi Hz. unfold gconv.
  rewrite (sumn_ext n _ (fun j => add (if (j <=? k) && (k - j <? length q) then mul (h j) (coefn q (k - j)) else zero)
     (mul (delta i j) (if (j <=? k) && (k - j <? length q) then mul c (coefn q (k - j)) else zero)))).
  - rewrite (sumn_add L). rewrite (sumn_delta_l L n i (fun j => if (j <=? k) && (k - j <? length q) then mul c (coefn q (k - j)) else zero)) by assumption. reflexivity.
  - intros j Hj. unfold upd1, delta. destruct (Nat.eqb_spec j i); destruct (Nat.eqb_spec i j); try congruence; subst;
      match goal with |- context [if ?b then _ else _] => destruct b end; try rewrite Hz; ring.
Qed.

Lemma pdiv_ok eps (p q : list T) : p <> [] -> q <> [] -> coefn q (length q - 1) <> zero -> negligible eps zero ->
  exists a b r, pdiv eps p q = Ret (a, b) /\
    a <> [] /\ b <> [] /\
    length a = Nat.max 1 (length p + 1 - length q) /\
    (length p < length q -> a = [zero] /\ b = p) /\
    (length q <= length p -> reduced eps r b /\ length r = length p) /\
    (length p < length q -> r = p) /\
    (forall k, length q - 1 <= k -> coefn r k = zero) /\
    (forall k, coefn p k = add (prod_coef a q k) (coefn r k)).
Proof.
  intros Hp Hq Hlead Heps.
  assert (Lp : 0 < length p) by (destruct p; [congruence|cbn; lia]). assert (Lq : 0 < length q) by (destruct q; [congruence|cbn; lia]).
  unfold pdiv, pdegree, poly. rewrite !usub_ok by lia. cbn [bind]. destruct (Nat.ltb_spec (length p - 1) (length q - 1)) as [Hlt|Hge].
  - cbn [pzero pfrom_coef length Nat.eqb bind]. exists [zero], p, p. split; [reflexivity|]. split; [discriminate|]. split; [assumption|].
    split; [cbn [length]; lia|]. split; [auto|]. split; [intros; lia|]. split; [reflexivity|]. split.
    + intros k Hk. apply coefn_out. lia.
    + intros k. unfold prod_coef. rewrite (sumn_zero_ext L); [ring|]. intros i Hi. unfold coefn at 1. destruct i as [|[|i]]; cbn; ring.
  - set (dq := length q - 1) in *. set (n := length p - 1 - dq + 1).
    rewrite usub_ok by (unfold dq; lia). cbn [bind]. fold n.
    match goal with |- context [for_loop_rev 0 n ?body ?s] => set (bd := body); set (s0 := s) end.
    destruct (for_loop_rev_ind (fun i (st : list T * list T) => exists h g, is_vec (fst st) n h /\ is_vec (snd st) (length p) g /\
       (forall j, j < i -> h j = zero) /\ (forall k, dq + i <= k < length p -> g k = zero) /\
       forall k, k < length p -> coefn p k = add (gconv n h q k) (g k)) bd 0 n s0) as ((quo & rem) & E & h & g & Hh & Hg & _ & Hz & Hc).
    + lia.
    + exists (fun _ => zero), (coefn p). unfold s0. cbn [fst snd]. split; [apply is_vec_repeat|]. split; [apply is_vec_coefs|].
      split; [reflexivity|]. split; [intros k Hk; unfold n, dq in Hk; lia|]. intros k Hk. unfold gconv.
      rewrite (sumn_zero_ext L); [ring|]. intros j Hj. destruct (_ && _); ring.
    + intros i [quo rem] Hi (h & g & Hh & Hg & Hz & Hgz & Hc). cbn [fst snd] in *. unfold bd. cbn [fst snd].
      rewrite (is_vec_get _ _ _ (dq + i) Hg) by (unfold n, dq in *; lia). cbn [bind].
      rewrite (is_vec_get _ _ _ dq (is_vec_coefs q)) by (unfold dq; lia). cbn [bind]. set (c := div (g (dq + i)) (coefn q dq)).
      destruct (is_vec_set quo n h i c Hh) as (quo' & Eq & Hq'); [lia|]. rewrite Eq. cbn [bind].
      match goal with |- context [for_loop 0 (length q) ?body _] => set (bd2 := body) end.
      destruct (for_loop_ind (fun k s => is_vec s (length p) (fun m => if (i <=? m) && (m - i <? k) then sub (g m) (mul (coefn q (m - i)) c) else g m)) bd2 0 (length q) rem) as (rem' & Er & Hr').
      * lia.
      * eapply is_vec_ext; [|exact Hg]. intros m Hm. cbv beta. replace ((i <=? m) && (m - i <? 0)) with false; [reflexivity|]. destruct (i <=? m); reflexivity.
      * intros k s Hk Hs. unfold bd2. rewrite (is_vec_get _ _ _ k (is_vec_coefs q)), (is_vec_get _ _ _ (k + i) Hs) by (unfold n, dq in *; lia). cbn [bind].
        match goal with |- exists s', vset s _ ?v = _ /\ _ => destruct (is_vec_set s _ _ (k + i) v Hs) as (s2 & E2 & H2); [unfold n, dq in *; lia|] end.
        exists s2. split; [exact E2|]. eapply is_vec_ext; [|exact H2]. intros m Hm. unfold upd1. cbv beta.
        replace (k + i - i) with k by lia. rewrite (Nat.ltb_irrefl k), andb_false_r.
        destruct (Nat.eqb_spec m (k + i)).
        -- subst m. replace (k + i - i) with k by lia. replace (i <=? k + i) with true by (symmetry; apply Nat.leb_le; lia).
           replace (k <? S k) with true by (symmetry; apply Nat.ltb_lt; lia). reflexivity.
        -- destruct (Nat.leb_spec i m); [|reflexivity]. cbn [andb]. destruct (Nat.ltb_spec (m - i) k); destruct (Nat.ltb_spec (m - i) (S k)); try lia; reflexivity.
      * rewrite Er. cbn [bind]. eexists. split; [reflexivity|]. cbn [fst snd]. exists (upd1 h i c), (fun m => if (i <=? m) && (m - i <? length q) then sub (g m) (mul (coefn q (m - i)) c) else g m).
        split; [exact Hq'|]. split; [exact Hr'|]. split; [|split].
        -- intros j Hj. unfold upd1. destruct (Nat.eqb_spec j i); [lia|]. apply Hz. lia.
        -- intros k Hk. replace (i <=? k) with true by (symmetry; apply Nat.leb_le; lia). cbn [andb].
           destruct (Nat.ltb_spec (k - i) (length q)).
           ++ assert (k = dq + i) by (unfold dq in *; lia). subst k. replace (dq + i - i) with dq by lia.
              assert (Hx : mul c (coefn q dq) = g (dq + i)) by (apply (fl_div O F); exact Hlead). rewrite <- Hx. ring.
           ++ apply Hgz. unfold dq in *; lia.
        -- intros k Hk. rewrite gconv_upd by (try lia; apply Hz; lia). rewrite (Hc k Hk). destruct (_ && _); ring.
    + rewrite E. cbn [bind fst snd].
      rewrite (pfrom_coef_len quo (n - 1)) by (cbn [fst] in Hh; rewrite (is_vec_len _ _ _ Hh); unfold n; lia). cbn [bind].
      cbn [fst snd] in *. assert (Hne : rem <> []). { intro; subst rem. apply is_vec_len in Hg. cbn in Hg. lia. }
      destruct (reduce_coef_ok eps rem Hne) as (r & Er & Ef & Hr). rewrite Er. cbn [bind]. rewrite Ef. cbn [bind].
      exists quo, r, rem. split; [reflexivity|].
      assert (Hlen := is_vec_len _ _ _ Hh). assert (Hlr := is_vec_len _ _ _ Hg).
      split; [intro; subst quo; cbn in Hlen; unfold n in Hlen; lia|].
      split; [intro; subst r; destruct Hr as (k & Hk & Hf & _); apply (f_equal (@length T)) in Hf; rewrite firstn_length in Hf; cbn in Hf; lia|].
      split; [rewrite Hlen; unfold n, dq; lia|]. split; [intros; unfold dq in *; lia|]. split; [intros _; split; [exact Hr|exact Hlr]|]. split; [intros; unfold dq in *; lia|].
      assert (Hrz : forall k, dq <= k -> coefn rem k = zero).
      { intros k Hk. destruct (Nat.lt_ge_cases k (length p)); [rewrite (is_vec_coefn _ _ _ k Hg) by assumption; apply Hz; lia|apply coefn_out; lia]. }
      split; [exact Hrz|]. intros k.
      assert (Hgc : gconv n h q k = prod_coef quo q k).
      { unfold prod_coef. rewrite <- (conv_full L). unfold gconv, conv. rewrite Hlen. apply sumn_ext. intros j Hj.
        rewrite (is_vec_coefn _ _ _ j Hh) by assumption. reflexivity. }
      destruct (Nat.lt_ge_cases k (length p)).
      * rewrite (Hc k) by assumption. rewrite Hgc. rewrite (is_vec_coefn _ _ _ k Hg) by assumption. reflexivity.
      * rewrite (coefn_out p) by assumption. rewrite (coefn_out rem) by lia. unfold prod_coef. rewrite (sumn_zero_ext L); [ring|].
        intros j Hj. destruct (Nat.lt_ge_cases j n); [rewrite (coefn_out q) by (unfold n, dq in *; lia); ring|rewrite (coefn_out quo) by lia; ring].
Qed.

(** What the caller sees. *)
Lemma pdiv_spec eps (p q : list T) : p <> [] -> q <> [] -> coefn q (length q - 1) <> zero -> negligible eps zero ->
  exists a b, pdiv eps p q = Ret (a, b) /\
    length a = Nat.max 1 (length p + 1 - length q) /\
    1 <= length b <= Nat.max 1 (length q - 1) /\
    (forall k, length q - 1 <= k -> coefn b k = zero) /\
    (forall k, exists d, coefn p k = add (add (prod_coef a q k) (coefn b k)) d /\ (d = zero \/ (coefn b k = zero /\ negligible eps d))).
Proof.
  intros Hp Hq Hl He. destruct (pdiv_ok eps p q Hp Hq Hl He) as (a & b & r & E & Ha & Hb & La & H1 & H2 & H3 & H4 & H5).
  assert (Lq : 0 < length q) by (destruct q; [congruence|cbn; lia]).
  exists a, b. split; [exact E|]. split; [exact La|].
  assert (Lb : 1 <= length b) by (destruct b; [congruence|cbn; lia]).
  destruct (Nat.lt_ge_cases (length p) (length q)) as [Hlt|Hge].
  - destruct (H1 Hlt) as [-> ->]. rewrite (H3 Hlt) in *. split; [lia|]. split; [exact H4|].
    intros k. exists zero. split; [rewrite (H5 k) at 1; ring|left; reflexivity].
  - destruct (H2 Hge) as [Hr Hlr]. split; [|split].
    + split; [exact Lb|]. destruct Hr as (k & Hk & -> & Hd & [->|Ht]).
      * rewrite firstn_length. lia.
      * rewrite firstn_length. destruct (Nat.le_gt_cases k (length q - 1)); [lia|]. exfalso. apply Ht. rewrite (H4 (k - 1)) by lia. exact He.
    + intros k Hk. destruct (reduced_coef _ _ _ Hr k) as [H|[H _]]; [rewrite H; apply H4; exact Hk|exact H].
    + intros k. destruct (reduced_coef _ _ _ Hr k) as [H|[H6 H7]].
      * exists zero. split; [rewrite (H5 k), H; ring|left; reflexivity].
      * exists (coefn r k). split; [rewrite (H5 k), H6; ring|right; auto].
Qed.

Lemma pdiv_exact eps (p q : list T) : exact_eps eps -> p <> [] -> q <> [] -> coefn q (length q - 1) <> zero ->
  exists a b m s, pdiv eps p q = Ret (a, b) /\ pmul a q = Ret m /\ padd m b = Ret s /\ same_poly s p /\
    (forall k, length q - 1 <= k -> coefn b k = zero) /\ (forall x, peval p x = add (mul (peval a x) (peval q x)) (peval b x)).
Proof.
  intros He Hp Hq Hl. assert (Hez : negligible eps zero) by (apply He; reflexivity).
  destruct (pdiv_spec eps p q Hp Hq Hl Hez) as (a & b & E & La & Lb & Hb & Hc).
  assert (Ha : a <> []) by (intro; subst a; cbn [length] in La; lia). assert (Hbn : b <> []) by (intro; subst b; cbn [length] in Lb; lia).
  destruct (pmul_ok L a q Ha Hq) as (m & Em & Lm & Hm).
  assert (Hmn : m <> []). { intro; subst m. destruct a; [congruence|]. destruct q; [congruence|]. cbn [length] in Lm. lia. }
  destruct (padd_ok L m b Hmn Hbn) as (s & Es & Ls & Hs).
  assert (Hsp : same_poly s p).
  { intros k. rewrite Hs, Hm. destruct (Hc k) as (d & Hd & Hz).
    assert (d = zero) by (destruct Hz as [?|[_ Hz]]; [assumption|apply He; exact Hz]). subst d. rewrite Hd. unfold prod_coef. ring. }
  exists a, b, m, s. split; [exact E|]. split; [exact Em|]. split; [exact Es|]. split; [exact Hsp|]. split; [exact Hb|].
  intros x. rewrite (peval_pval L p). rewrite <- (pval_same L s p x Hsp), <- (peval_pval L).
  destruct (padd_eval L m b x Hmn Hbn) as (s' & Es' & Hs'). rewrite Es in Es'. injection Es' as <-. rewrite Hs'.
  destruct (pmul_eval L a q x Ha Hq) as (m' & Em' & Hm'). rewrite Em in Em'. injection Em' as <-. rewrite Hm'. reflexivity.
Qed.
End Div.

Section Calc.
Context {T : Type} {O : Ops T} {N : NOps T}.

Lemma push_loop_list (f : nat -> T) (p : list T) (g : nat -> T) (pre : list T) lo : (forall i, lo <= i < length p -> vget p i = Ret (g i)) -> lo <= length p ->
  for_loop lo (length p) (fun i c => let! a := vget p i in Ret (c ++ [f i])) pre = Ret (pre ++ map f (seq lo (length p - lo))).
Proof.
  intros Hg Hlo.
  destruct (for_loop_ind (fun i c => c = pre ++ map f (seq lo (i - lo))) (fun i c => let! a := vget p i in Ret (c ++ [f i])) lo (length p) pre) as (s & E & ->).
  - assumption.
  - rewrite Nat.sub_diag. cbn. rewrite app_nil_r. reflexivity.
  - intros i s Hi ->. rewrite (Hg i Hi). cbn [bind]. eexists. split; [reflexivity|]. replace (S i - lo) with (S (i - lo)) by lia.
    rewrite seq_S, map_app, app_assoc. cbn [map]. replace (lo + (i - lo)) with i by lia. reflexivity.
  - exact E.
Qed.

Definition dlist (p : list T) : list T := map (fun i => mul (of_nat i) (coefn p i)) (seq 1 (length p - 1)).
Definition ilist (p : list T) : list T := zero :: map (fun i => div (coefn p i) (of_nat (i + 1))) (seq 0 (length p)).

Lemma dlist_len p : length (dlist p) = length p - 1.
Proof. unfold dlist. rewrite map_length, seq_length. reflexivity. Qed.
Lemma ilist_len p : length (ilist p) = S (length p).
Proof. unfold ilist. cbn. rewrite map_length, seq_length. reflexivity. Qed.
Lemma nth_map_seq_from (g : nat -> T) lo n i d : i < n -> nth i (map g (seq lo n)) d = g (lo + i).
Proof.
  intros H. rewrite (nth_indep _ d (g 0)) by (rewrite map_length, seq_length; assumption).
  rewrite (map_nth g). rewrite seq_nth by assumption. reflexivity.
Qed.

Lemma pdiff_red eps p : p <> [] -> exists s, pdiff eps p = Ret s /\ s <> [] /\ ((length p = 1 /\ s = [zero]) \/ (2 <= length p /\ reduced eps (dlist p) s)).
Proof.
  intros Hp. assert (Lp : 0 < length p) by (destruct p; [congruence|cbn; lia]).
  unfold pdiff, pdegree, poly. rewrite usub_ok by lia. cbn [bind]. destruct (Nat.eqb_spec (length p - 1) 0) as [H1|H1].
  - exists [zero]. split; [reflexivity|]. split; [discriminate|]. left. split; [lia|reflexivity].
  - rewrite (for_loop_ext _ (fun i c => let! a := vget p i in Ret (c ++ [mul (of_nat i) (coefn p i)]))).
    2:{ intros i s Hi. rewrite (is_vec_get _ _ _ i (is_vec_coefs p)) by lia. reflexivity. }
    rewrite (push_loop_list _ p (coefn p) [] 1) by (try lia; intros; apply (is_vec_coefs p); lia). cbn [bind app]. fold (dlist p).
    assert (Hd : dlist p <> []). { intro E. apply (f_equal (@length T)) in E. rewrite dlist_len in E. cbn in E. lia. }
    destruct (reduce_coef_ok eps (dlist p) Hd) as (r & Er & Ef & Hr). rewrite Er. cbn [bind]. exists r. split; [exact Ef|]. split.
    + intro; subst r. destruct Hr as (k & Hk & Hf & _). apply (f_equal (@length T)) in Hf. rewrite firstn_length in Hf. cbn in Hf. lia.
    + right. split; [lia|exact Hr].
Qed.

Lemma pinteg_red eps p : exists s, pinteg eps p = Ret s /\ s <> [] /\ reduced eps (ilist p) s.
Proof.
  unfold pinteg, poly.
  rewrite (for_loop_ext _ (fun i c => let! a := vget p i in Ret (c ++ [div (coefn p i) (of_nat (i + 1))]))).
  2:{ intros i s Hi. rewrite (is_vec_get _ _ _ i (is_vec_coefs p)) by lia. reflexivity. }
  rewrite (push_loop_list _ p (coefn p) [zero] 0) by (try lia; intros; apply (is_vec_coefs p); lia). cbn [bind app]. rewrite Nat.sub_0_r. fold (ilist p).
  assert (Hd : ilist p <> []) by discriminate.
  destruct (reduce_coef_ok eps (ilist p) Hd) as (r & Er & Ef & Hr). rewrite Er. cbn [bind]. exists r. split; [exact Ef|]. split; [|exact Hr].
  intro; subst r. destruct Hr as (k & Hk & Hf & _). apply (f_equal (@length T)) in Hf. rewrite firstn_length in Hf. cbn [length] in Hf. lia.
Qed.
End Calc.

Section CalcRing.
Context {T : Type} {O : Ops T} {N : NOps T} (L : RingLaws O).
Add Ring ringPolyCalc : (rl_ring O L).

Lemma dlist_coef (p : list T) i : coefn (dlist p) i = mul (of_nat (S i)) (coefn p (S i)).
Proof.
  destruct (Nat.lt_ge_cases i (length p - 1)).
  - unfold dlist. unfold coefn at 1. rewrite nth_map_seq_from by assumption. reflexivity.
  - rewrite coefn_out by (rewrite dlist_len; assumption). rewrite coefn_out by lia. ring.
Qed.

Lemma pdiff_coef eps (p : list T) : p <> [] -> exists s, pdiff eps p = Ret s /\ s <> [] /\ forall i, coefn s i = mul (of_nat (S i)) (coefn p (S i)) \/ (coefn s i = zero /\ negligible eps (mul (of_nat (S i)) (coefn p (S i)))).
Proof.
  intros Hp. destruct (pdiff_red eps p Hp) as (s & E & Hs & H). exists s. split; [exact E|]. split; [exact Hs|].
  intros i. destruct H as [[H1 ->]|[H1 H2]].
  - left. rewrite (coefn_out p) by lia. unfold coefn. destruct i as [|[|i]]; cbn; ring.
  - rewrite <- dlist_coef. apply reduced_coef. exact H2.
Qed.

Lemma pdiff_kept eps (p : list T) : 2 <= length p -> ~ negligible eps (mul (of_nat (length p - 1)) (coefn p (length p - 1))) ->
  exists s, pdiff eps p = Ret s /\ length s = length p - 1 /\ forall i, coefn s i = mul (of_nat (S i)) (coefn p (S i)).
Proof.
  intros Hl Hn. assert (Hp : p <> []) by (intro; subst p; cbn in Hl; lia).
  destruct (pdiff_red eps p Hp) as (s & E & Hs & [[H1 _]|[H1 H2]]); [lia|].
  assert (Hd : dlist p <> []). { intro E'. apply (f_equal (@length T)) in E'. rewrite dlist_len in E'. cbn in E'. lia. }
  assert (s = dlist p).
  { apply (reduced_kept eps); [exact Hd| |exact H2]. rewrite dlist_len, dlist_coef. replace (S (length p - 1 - 1)) with (length p - 1) by lia. exact Hn. }
  subst s. exists (dlist p). split; [exact E|]. split; [apply dlist_len|]. apply dlist_coef.
Qed.
End CalcRing.

Section CalcField.
Context {T : Type} {O : Ops T} {N : NOps T} (F : FieldLaws O) (Hnat : forall n, of_nat (S n) <> zero).
Let L : RingLaws O := fl_ring O F.
Add Ring ringPolyCalcF : (rl_ring O L).

Lemma zero_div (y : T) : y <> zero -> div zero y = zero.
Proof.
  intros Hy. assert (H := fl_div O F zero y Hy).
  assert (H1 : mul (mul (div zero y) y) (div one y) = div zero y).
  { transitivity (mul (div zero y) (mul (div one y) y)); [ring|]. rewrite (fl_div O F) by assumption. ring. }
  rewrite <- H1, H. ring.
Qed.

Lemma ilist_coef (p : list T) i : coefn (ilist p) (S i) = div (coefn p i) (of_nat (S i)).
Proof.
  unfold ilist. unfold coefn at 1. cbn [nth]. destruct (Nat.lt_ge_cases i (length p)).
  - rewrite nth_map_seq_from by assumption. cbn [Nat.add]. replace (i + 1) with (S i) by lia. reflexivity.
  - rewrite nth_overflow by (rewrite map_length, seq_length; assumption). rewrite coefn_out by assumption. symmetry. apply zero_div. apply Hnat.
Qed.

Lemma pinteg_coef eps (p : list T) : exists s, pinteg eps p = Ret s /\ s <> [] /\ coefn s 0 = zero /\ forall i, coefn s (S i) = div (coefn p i) (of_nat (S i)) \/ (coefn s (S i) = zero /\ negligible eps (div (coefn p i) (of_nat (S i)))).
Proof.
  destruct (pinteg_red eps p) as (s & E & Hs & H). exists s. split; [exact E|]. split; [exact Hs|]. split.
  - destruct (reduced_coef _ _ _ H 0) as [H0|[H0 _]]; rewrite H0; reflexivity.
  - intros i. rewrite <- ilist_coef. apply reduced_coef. exact H.
Qed.

Lemma pinteg_kept eps (p : list T) : p <> [] -> ~ negligible eps (div (coefn p (length p - 1)) (of_nat (length p))) ->
  exists s, pinteg eps p = Ret s /\ length s = S (length p) /\ coefn s 0 = zero /\ forall i, coefn s (S i) = div (coefn p i) (of_nat (S i)).
Proof.
  intros Hp Hn. assert (Lp : 0 < length p) by (destruct p; [congruence|cbn; lia]).
  destruct (pinteg_red eps p) as (s & E & Hs & H). assert (s = ilist p).
  { apply (reduced_kept eps); [discriminate| |exact H]. rewrite ilist_len. replace (S (length p) - 1) with (S (length p - 1)) by lia.
    rewrite ilist_coef. replace (S (length p - 1)) with (length p) by lia. exact Hn. }
  subst s. exists (ilist p). split; [exact E|]. split; [apply ilist_len|]. split; [reflexivity|]. intros i. apply ilist_coef.
Qed.

Lemma mul_div_cancel (x : T) n : mul (of_nat (S n)) (div x (of_nat (S n))) = x.
Proof. rewrite (Rmul_comm (rl_ring O L)). apply (fl_div O F). apply Hnat. Qed.

Lemma coefn_list_eq (p q : list T) : length p = length q -> same_poly p q -> p = q.
Proof. intros Hl H. apply (nth_ext p q zero zero Hl). intros i Hi. apply H. Qed.

Lemma pdiff_pinteg_exact eps (p : list T) : p <> [] ->
  ~ negligible eps (div (coefn p (length p - 1)) (of_nat (length p))) -> ~ negligible eps (coefn p (length p - 1)) ->
  (let! s := pinteg eps p in pdiff eps s) = Ret p.
Proof.
  intros Hp H1 H2. assert (Lp : 0 < length p) by (destruct p; [congruence|cbn; lia]).
  destruct (pinteg_kept eps p Hp H1) as (s & E & Hl & H0 & Hs). rewrite E. cbn [bind].
  destruct (pdiff_kept L eps s) as (d & Ed & Ld & Hd).
  - lia.
  - rewrite Hl. replace (S (length p) - 1) with (S (length p - 1)) by lia. rewrite Hs, mul_div_cancel. exact H2.
  - rewrite Ed. f_equal. apply coefn_list_eq; [lia|]. intros i. rewrite Hd, Hs. apply mul_div_cancel.
Qed.

Lemma pdiff_pinteg eps (p : list T) : exists s d, pinteg eps p = Ret s /\ pdiff eps s = Ret d /\ forall i, coefn d i = coefn p i \/ (coefn d i = zero /\ (negligible eps (coefn p i) \/ negligible eps (div (coefn p i) (of_nat (S i))))).
Proof.
  destruct (pinteg_coef eps p) as (s & E & Hs & _ & Hi). destruct (pdiff_coef L eps s Hs) as (d & Ed & _ & Hd).
  exists s, d. split; [exact E|]. split; [exact Ed|]. intros i. destruct (Hi i) as [H|[H H']].
  - specialize (Hd i). rewrite H, mul_div_cancel in Hd. destruct Hd as [Hd|[Hd Hn]]; [left; exact Hd|right; auto].
  - right. split; [|right; exact H']. specialize (Hd i). rewrite H in Hd. destruct Hd as [Hd|[Hd _]]; rewrite Hd; [ring|reflexivity].
Qed.
End CalcField.

(** ** Over the reals: derivatives in the sense of analysis *)
Lemma npow_R (x : R) k : npow x k = (x ^ k)%R.
Proof. induction k; [reflexivity|]. cbn. rewrite IHk. reflexivity. Qed.

Lemma derivable_sumn n (f f' : nat -> R -> R) x : (forall i, i < n -> derivable_pt_lim (f i) x (f' i x)) ->
  derivable_pt_lim (fun y => sumn n (fun i => f i y)) x (sumn n (fun i => f' i x)).
Proof.
  induction n as [|n IH]; intros H.
  - cbn. apply derivable_pt_lim_const.
  - cbn [sumn]. apply (derivable_pt_lim_plus (fun y => sumn n (fun i => f i y)) (f n)); [apply IH; intros; apply H; lia|apply H; lia].
Qed.

Lemma pval_derivative (p : list R) x :
  derivable_pt_lim (fun y => peval p y) x (sumn (length p) (fun i => mul (mul (of_nat (S i)) (coefn p (S i))) (npow x i))).
Proof.
  pose proof R_RingLaws as L.
  assert (E : forall y, peval p y = sumn (length p) (fun i => mul (coefn p i) (npow y i))) by (intros y; apply (peval_pval L)).
  assert (Hd : derivable_pt_lim (fun y => sumn (length p) (fun i => mul (coefn p i) (npow y i))) x
    (sumn (length p) (fun i => mul (coefn p i) (mul (of_nat i) (npow x (i - 1)))))).
  { apply (derivable_sumn (length p) (fun i y => mul (coefn p i) (npow y i)) (fun i y => mul (coefn p i) (mul (of_nat i) (npow y (i - 1))))).
    intros i Hi. apply (derivable_pt_lim_ext (fun y => (coefn p i * y ^ i)%R)); [intros z; rewrite <- (npow_R z i); reflexivity|].
    replace (npow x (i - 1)) with (x ^ (pred i))%R by (rewrite <- npow_R; f_equal; lia). apply (derivable_pt_lim_scal (fun y => (y ^ i)%R)). apply derivable_pt_lim_pow. }
  eapply derivable_pt_lim_ext; [intros y; symmetry; apply E|]. 
  match goal with |- derivable_pt_lim _ _ ?v => replace v with (sumn (length p) (fun i => mul (coefn p i) (mul (of_nat i) (npow x (i - 1))))); [exact Hd|] end.
  destruct (length p) as [|n] eqn:El; [reflexivity|]. rewrite (sumn_first L). change (sumn (S n) ?f) with (add (sumn n f) (f n)).
  cbv beta. rewrite (coefn_out p (S n)) by lia.
  rewrite (sumn_ext n (fun i => mul (coefn p (S i)) (mul (of_nat (S i)) (npow x (S i - 1)))) (fun i => mul (mul (of_nat (S i)) (coefn p (S i))) (npow x i))).
  - cbn [of_nat R_nops mul add zero R_ops INR]. lra.
  - intros i Hi. replace (S i - 1) with i by lia. cbn [of_nat R_nops mul add zero R_ops]. ring.
Qed.

Lemma sumn_R_close n (a b e : nat -> R) : (forall i, i < n -> (Rabs (a i - b i) <= e i)%R) -> (Rabs (sumn n a - sumn n b) <= sumn n e)%R.
Proof.
  induction n as [|n IH]; intros H.
  - cbn. rewrite Rminus_0_r, Rabs_R0. lra.
  - cbn [sumn]. cbn [add R_ops]. replace (sumn n a + a n - (sumn n b + b n))%R with ((sumn n a - sumn n b) + (a n - b n))%R by ring.
    eapply Rle_trans; [apply Rabs_triang|]. apply Rplus_le_compat; [apply IH; intros; apply H; lia|apply H; lia].
Qed.

Lemma negligible_R (eps c : R) : negligible eps c <-> (Rabs c <= eps)%R.
Proof.
  unfold negligible. cbn [leb tabs sub zero R_ops]. unfold R_leb. rewrite Rminus_0_r.
  destruct (Rle_dec (Rabs c) eps); split; intros; try reflexivity; try discriminate; try assumption; contradiction.
Qed.

Lemma exact_eps_R0 : exact_eps 0%R.
Proof.
  intros c. rewrite negligible_R. cbn [zero R_ops]. split; intros H.
  - destruct (Req_dec c 0); [assumption|]. apply Rabs_pos_lt in H0. lra.
  - rewrite H, Rabs_R0. lra.
Qed.

Lemma Rabs_npow x i : Rabs (npow x i) = (Rabs x ^ i)%R.
Proof. rewrite (npow_R x i). symmetry. apply RPow_abs. Qed.

Lemma coef_close_val n (a b e : nat -> R) x : (forall i, i < n -> (Rabs (a i - b i) <= e i)%R) ->
  (Rabs (sumn n (fun i => mul (a i) (npow x i)) - sumn n (fun i => mul (b i) (npow x i))) <= sumn n (fun i => (e i * Rabs x ^ i)%R))%R.
Proof.
  intros H. apply sumn_R_close. intros i Hi. cbn [mul R_ops].
  replace (a i * npow x i - b i * npow x i)%R with ((a i - b i) * npow x i)%R by ring. rewrite Rabs_mult, Rabs_npow.
  apply Rmult_le_compat_r; [apply pow_le; apply Rabs_pos|apply H; exact Hi].
Qed.

Lemma pdiff_derivative (eps : R) (p : list R) : (0 <= eps)%R -> p <> [] -> exists s, pdiff eps p = Ret s /\
  forall x, exists D, derivable_pt_lim (fun y => peval p y) x D /\ (Rabs (D - peval s x) <= sumn (Nat.max (length p) (length s)) (fun i => (eps * Rabs x ^ i)%R))%R.
Proof.
  intros He Hp. pose proof R_RingLaws as L. destruct (pdiff_coef L eps p Hp) as (s & E & _ & Hs). exists s. split; [exact E|].
  intros x. eexists. split; [apply pval_derivative|]. rewrite (peval_pval L). set (n := Nat.max (length p) (length s)).
  rewrite (pval_bound L s n) by (unfold n; lia).
  rewrite <- (sumn_trunc L (length p) n (fun i => mul (mul (of_nat (S i)) (coefn p (S i))) (npow x i))).
  - apply (coef_close_val n (fun i => mul (of_nat (S i)) (coefn p (S i))) (coefn s) (fun _ => eps)). intros i Hi.
    destruct (Hs i) as [H|[H H1]]; rewrite H.
    + unfold Rminus. rewrite Rplus_opp_r, Rabs_R0. exact He.
    + apply negligible_R in H1. cbn [zero R_ops]. rewrite Rminus_0_r. exact H1.
  - unfold n. lia.
  - intros i Hi. rewrite (coefn_out p) by lia. cbn [mul zero R_ops]. ring.
Qed.

Lemma pdiff_derivative_exact (eps : R) (p s : list R) : p <> [] -> pdiff eps p = Ret s -> (forall i, coefn s i = mul (of_nat (S i)) (coefn p (S i))) ->
  forall x, derivable_pt_lim (fun y => peval p y) x (peval s x).
Proof.
  intros Hp E Hs x. pose proof R_RingLaws as L. rewrite (peval_pval L). set (n := Nat.max (length p) (length s)).
  rewrite (pval_bound L s n) by (unfold n; lia).
  match goal with |- derivable_pt_lim _ _ ?v => replace v with (sumn (length p) (fun i => mul (mul (of_nat (S i)) (coefn p (S i))) (npow x i))); [apply pval_derivative|] end.
  rewrite <- (sumn_trunc L (length p) n (fun i => mul (mul (of_nat (S i)) (coefn p (S i))) (npow x i))).
  - apply sumn_ext. intros i Hi. rewrite Hs. reflexivity.
  - unfold n. lia.
  - intros i Hi. rewrite (coefn_out p) by lia. cbn [mul zero R_ops]. ring.
Qed.

Lemma R_of_nat_nz n : of_nat (S n) <> (zero : R).
Proof. cbn [of_nat R_nops zero R_ops]. apply not_0_INR. lia. Qed.

Lemma peval_at_zero (p : list R) : peval p 0%R = coefn p 0.
Proof.
  destruct p as [|c p]; [reflexivity|]. rewrite peval_cons. unfold coefn. cbn [nth add mul R_ops]. ring.
Qed.

Lemma pinteg_antiderivative (eps : R) (p : list R) : (0 <= eps)%R -> exists s, pinteg eps p = Ret s /\ peval s 0%R = 0%R /\
  forall x, exists D, derivable_pt_lim (fun y => peval s y) x D /\ (Rabs (D - peval p x) <= sumn (Nat.max (length p) (length s)) (fun i => (INR (S i) * eps * Rabs x ^ i)%R))%R.
Proof.
  intros He. pose proof R_RingLaws as L. destruct (pinteg_coef R_FieldLaws R_of_nat_nz eps p) as (s & E & _ & H0 & Hs). exists s. split; [exact E|].
  split; [rewrite peval_at_zero; exact H0|]. intros x. eexists. split; [apply pval_derivative|]. rewrite (peval_pval L). set (n := Nat.max (length p) (length s)).
  rewrite (pval_bound L p n) by (unfold n; lia).
  rewrite <- (sumn_trunc L (length s) n (fun i => mul (mul (of_nat (S i)) (coefn s (S i))) (npow x i))).
  - apply (coef_close_val n (fun i => mul (of_nat (S i)) (coefn s (S i))) (coefn p) (fun i => (INR (S i) * eps)%R)). intros i Hi.
    assert (Hc : coefn p i = mul (of_nat (S i)) (div (coefn p i) (of_nat (S i)))) by (symmetry; apply (mul_div_cancel R_FieldLaws R_of_nat_nz)).
    assert (Hp0 : (0 <= INR (S i))%R) by apply pos_INR.
    destruct (Hs i) as [H|[H H1]]; rewrite H.
    + rewrite <- Hc. unfold Rminus. rewrite Rplus_opp_r, Rabs_R0. apply Rmult_le_pos; assumption.
    + rewrite Hc. apply negligible_R in H1. cbn [mul zero R_ops of_nat R_nops] in *.
      rewrite Rmult_0_r, Rminus_0_l, Rabs_Ropp, Rabs_mult, (Rabs_right (INR (S i))) by lra. apply Rmult_le_compat_l; assumption.
  - unfold n. lia.
  - intros i Hi. rewrite (coefn_out s) by lia. cbn [mul zero R_ops]. ring.
Qed.

Lemma pinteg_exact (p s : list R) eps : pinteg eps p = Ret s -> (forall i, coefn s (S i) = div (coefn p i) (of_nat (S i))) ->
  forall x, derivable_pt_lim (fun y => peval s y) x (peval p x).
Proof.
  intros E Hs x. pose proof R_RingLaws as L. rewrite (peval_pval L). set (n := Nat.max (length p) (length s)).
  rewrite (pval_bound L p n) by (unfold n; lia).
  match goal with |- derivable_pt_lim _ _ ?v => replace v with (sumn (length s) (fun i => mul (mul (of_nat (S i)) (coefn s (S i))) (npow x i))); [apply pval_derivative|] end.
  rewrite <- (sumn_trunc L (length s) n (fun i => mul (mul (of_nat (S i)) (coefn s (S i))) (npow x i))).
  - apply sumn_ext. intros i Hi. rewrite Hs. rewrite (mul_div_cancel R_FieldLaws R_of_nat_nz). reflexivity.
  - unfold n. lia.
  - intros i Hi. rewrite (coefn_out s) by lia. cbn [mul zero R_ops]. ring.
Qed.

Section More.
Context {T : Type} {O : Ops T} (L : RingLaws O).
Add Ring ringPolyMore : (rl_ring O L).

Lemma sumn_zero_ext_plus n (f : nat -> T) a : (forall i, i < n -> f i = zero) -> add a (sumn n f) = a.
Proof. intros H. rewrite (sumn_zero_ext L) by exact H. ring. Qed.

Lemma prodn_zero n (f : nat -> T) i : i < n -> f i = zero -> prodn n f = zero.
Proof.
  induction n as [|n IH]; intros Hi Hz; [lia|]. cbn [prodn]. destruct (Nat.eq_dec i n); [subst; rewrite Hz; ring|]. rewrite IH by (try lia; assumption). ring.
Qed.

Lemma psub_iff (p q : list T) : p <> [] -> q <> [] ->
  exists s, psub p q = Ret s /\
    ((forall i, coefn s i = sub (coefn p i) (coefn q i)) <-> (forall i, length p <= i -> add (coefn q i) (coefn q i) = zero)).
Proof.
  intros Hp Hq. destruct (psub_ok L p q Hp Hq) as (s & E & _ & Hs). exists s. split; [exact E|]. split.
  - intros H i Hi. specialize (Hs i). rewrite H in Hs. destruct (Nat.ltb_spec i (length p)); [lia|]. rewrite (coefn_out p) in Hs by assumption.
    rewrite <- Hs at 1. ring.
  - intros H i. rewrite Hs. destruct (Nat.ltb_spec i (length p)) as [Hi|Hi]; [reflexivity|]. rewrite (coefn_out p) by assumption.
    transitivity (add (sub zero (coefn q i)) (add (coefn q i) (coefn q i))); [ring|]. rewrite (H i Hi). ring.
Qed.
End More.
