(** Proofs about polynomials. *)
From Coq Require Import Arith List Bool Lia Ring Reals Lra.
From Verif Require Import Outcome Scalar Approx_model Matrix_spec Poly_model Poly_spec Vector_proofs Sums.
Import ListNotations.
Local Open Scope nat_scope.

(** ** Lists through indexing *)
Definition is_vec {T} (l : list T) (n : nat) (g : nat -> T) : Prop := length l = n /\ forall i, i < n -> vget l i = Ret (g i).

Lemma is_vec_len {T} (l : list T) n g : is_vec l n g -> length l = n.
Proof. intros H; apply H. Qed.
Lemma is_vec_get {T} (l : list T) n g i : is_vec l n g -> i < n -> vget l i = Ret (g i).
Proof. intros H; apply H. Qed.
Lemma is_vec_ext {T} (l : list T) n g h : (forall i, i < n -> g i = h i) -> is_vec l n g -> is_vec l n h.
Proof. intros E [H1 H2]. split; [assumption|]. intros i Hi. rewrite <- E by assumption. auto. Qed.
Lemma is_vec_nth {T} (d : T) (l : list T) : is_vec l (length l) (fun i => nth i l d).
Proof. split; [reflexivity|]. intros i Hi. apply vget_ok. assumption. Qed.
Lemma is_vec_set {T} (l : list T) n g k v : is_vec l n g -> k < n -> exists l', vset l k v = Ret l' /\ is_vec l' n (upd1 g k v).
Proof.
  intros [H1 H2] Hk. exists (list_upd l k v). split; [apply vset_ok; lia|]. split; [rewrite length_list_upd; assumption|].
  intros i Hi. rewrite vget_list_upd by lia. unfold upd1. destruct (Nat.eqb_spec i k); [reflexivity|auto].
Qed.
Lemma is_vec_repeat {T} (x : T) n : is_vec (repeat x n) n (fun _ => x).
Proof. split; [apply repeat_length|]. intros i Hi. apply Matrix_proofs.vget_repeat. assumption. Qed.
Lemma is_vec_nth_eq {T} (d : T) (l : list T) n g i : is_vec l n g -> i < n -> nth i l d = g i.
Proof. intros [H1 H2] Hi. specialize (H2 i Hi). rewrite (vget_ok l i d) in H2 by lia. congruence. Qed.

Section WithOps.
Context {T : Type} {O : Ops T}.

Lemma is_vec_coefn (l : list T) n g i : is_vec l n g -> i < n -> coefn l i = g i.
Proof. apply is_vec_nth_eq. Qed.
Lemma coefn_out (l : list T) i : length l <= i -> coefn l i = zero.
Proof. apply nth_overflow. Qed.
Lemma is_vec_coefs (l : list T) : is_vec l (length l) (coefn l).
Proof. apply is_vec_nth. Qed.

(** ** Evaluation *)
Lemma peval_cons c p x : peval (c :: p) x = add c (mul x (peval p x)).
Proof. unfold peval. cbn [rev]. rewrite fold_left_app. reflexivity. Qed.

Lemma pfrom_coef_ok (p : list T) : p <> [] -> pfrom_coef p = Ret p.
Proof. intros H. unfold pfrom_coef. destruct p; [congruence|reflexivity]. Qed.
Lemma pfrom_coef_len (p : list T) n : length p = S n -> pfrom_coef p = Ret p.
Proof. intros H. apply pfrom_coef_ok. intro E. subst p. discriminate. Qed.

(** ** Addition and subtraction *)
Lemma pzip_spec op (p q : list T) : p <> [] \/ q <> [] ->
  exists s, pzip op p q = Ret s /\ length s = Nat.max (length p) (length q) /\
    forall i, i < length s -> coefn s i =
      if i <? Nat.min (length p) (length q) then op (coefn p i) (coefn q i)
      else if length q <? length p then coefn p i else coefn q i.
Proof.
  intros Hne. unfold pzip, poly. cbv zeta. set (m := Nat.min (length p) (length q)). set (l0 := if length q <? length p then p else q).
  assert (Hl0 : length l0 = Nat.max (length p) (length q)) by (unfold l0; destruct (Nat.ltb_spec (length q) (length p)); lia).
  assert (Hm : m <= length l0) by (unfold m; lia).
  match goal with |- context [for_loop 0 m ?body _] => set (bd := body) end.
  destruct (for_loop_ind (fun i s => is_vec s (length l0) (fun j => if j <? i then op (coefn p j) (coefn q j) else coefn l0 j)) bd 0 m l0) as (s & E & Hs).
  - lia.
  - apply is_vec_coefs.
  - intros i s Hi Hs. unfold bd. unfold m in Hi.
    rewrite (is_vec_get _ _ _ i (is_vec_coefs p)), (is_vec_get _ _ _ i (is_vec_coefs q)) by lia. cbn [bind].
    destruct (is_vec_set s _ _ i (op (coefn p i) (coefn q i)) Hs) as (s' & E & Hs'); [lia|].
    exists s'. split; [exact E|]. eapply is_vec_ext; [|exact Hs']. intros j Hj. unfold upd1. cbv beta.
    destruct (Nat.eqb_spec j i); destruct (Nat.ltb_spec j i); destruct (Nat.ltb_spec j (S i)); subst; try lia; reflexivity.
  - rewrite E. cbn [bind]. exists s. split.
    + apply pfrom_coef_ok. intro Es. subst s. destruct Hs as [Hl _]. cbn in Hl. rewrite Hl0 in Hl. destruct Hne as [H|H].
      * apply H. apply length_zero_iff_nil. lia.
      * apply H. apply length_zero_iff_nil. lia.
    + split; [rewrite <- Hl0; apply Hs|]. intros i Hi. rewrite (is_vec_len _ _ _ Hs) in Hi. rewrite (is_vec_coefn _ _ _ i Hs Hi). cbv beta.
      destruct (i <? m); [reflexivity|]. unfold l0. destruct (length q <? length p); reflexivity.
Qed.
End WithOps.

Section Ring.
Context {T : Type} {O : Ops T} (L : RingLaws O).
Add Ring ringPoly : (rl_ring O L).

Lemma npow_add x a b : npow x (a + b) = mul (npow x a) (npow x b).
Proof. induction a as [|a IH]; simpl; [ring|]. rewrite IH. ring. Qed.

Lemma pval_cons c p x : pval (c :: p) x = add c (mul x (pval p x)).
Proof.
  unfold pval. cbn [length]. rewrite (sumn_first L). unfold coefn. cbn [nth npow].
  rewrite <- (sumn_mul_l L). rewrite (Radd_comm (rl_ring O L)). rewrite (sumn_ext (length p) _ (fun i => mul x (mul (nth i p zero) (npow x i)))); [ring|].
  intros i Hi. ring.
Qed.

Lemma peval_pval p x : peval p x = pval p x.
Proof.
  induction p as [|c p IH]; [reflexivity|]. rewrite peval_cons, pval_cons, IH. reflexivity.
Qed.

(** Evaluation only depends on the coefficients; any bound on the length can be used. *)
Lemma pval_bound p n x : length p <= n -> pval p x = sumn n (fun i => mul (coefn p i) (npow x i)).
Proof.
  intros H. unfold pval. symmetry. apply (sumn_trunc L); [assumption|]. intros i Hi. rewrite coefn_out by lia. ring.
Qed.

Lemma pval_same p q x : same_poly p q -> pval p x = pval q x.
Proof.
  intros H. rewrite (pval_bound p (Nat.max (length p) (length q))), (pval_bound q (Nat.max (length p) (length q))) by lia.
  apply sumn_ext. intros i Hi. rewrite H. reflexivity.
Qed.

Lemma padd_ok p q : p <> [] -> q <> [] ->
  exists s, padd p q = Ret s /\ length s = Nat.max (length p) (length q) /\ (forall i, coefn s i = add (coefn p i) (coefn q i)).
Proof.
  intros Hp Hq. destruct (pzip_spec add p q (or_introl Hp)) as (s & E & Hl & Hs). exists s. split; [exact E|]. split; [exact Hl|].
  intros i. destruct (Nat.lt_ge_cases i (length s)) as [Hi|Hi].
  - rewrite Hs by assumption. destruct (Nat.ltb_spec i (Nat.min (length p) (length q))); [reflexivity|].
    destruct (Nat.ltb_spec (length q) (length p)).
    + rewrite (coefn_out q) by lia. ring.
    + rewrite (coefn_out p) by lia. ring.
  - rewrite !coefn_out by lia. ring.
Qed.

Lemma padd_eval p q x : p <> [] -> q <> [] -> exists s, padd p q = Ret s /\ peval s x = add (peval p x) (peval q x).
Proof.
  intros Hp Hq. destruct (padd_ok p q Hp Hq) as (s & E & Hl & Hs). exists s. split; [exact E|]. rewrite !peval_pval.
  rewrite (pval_bound p (length s)), (pval_bound q (length s)) by lia. rewrite <- (sumn_add L). unfold pval.
  apply sumn_ext. intros i Hi. rewrite Hs. ring.
Qed.

Lemma psub_ok p q : p <> [] -> q <> [] ->
  exists s, psub p q = Ret s /\ length s = Nat.max (length p) (length q) /\
    (forall i, coefn s i = if i <? length p then sub (coefn p i) (coefn q i) else coefn q i).
Proof.
  intros Hp Hq. destruct (pzip_spec sub p q (or_introl Hp)) as (s & E & Hl & Hs). exists s. split; [exact E|]. split; [exact Hl|].
  intros i. destruct (Nat.lt_ge_cases i (length s)) as [Hi|Hi].
  - rewrite Hs by assumption. destruct (Nat.ltb_spec i (Nat.min (length p) (length q))); destruct (Nat.ltb_spec i (length p)); try lia; [reflexivity| |].
    + destruct (Nat.ltb_spec (length q) (length p)); [|lia]. rewrite (coefn_out q) by lia. ring.
    + destruct (Nat.ltb_spec (length q) (length p)); [lia|reflexivity].
  - rewrite (coefn_out s), (coefn_out p), (coefn_out q) by lia. destruct (i <? length p); ring.
Qed.

(** The error of subtraction at x. *)
Lemma psub_eval p q x : p <> [] -> q <> [] -> exists s, psub p q = Ret s /\
  peval s x = add (sub (peval p x) (peval q x))
    (sumn (length q) (fun i => if i <? length p then zero else mul (add (coefn q i) (coefn q i)) (npow x i))).
Proof.
  intros Hp Hq. destruct (psub_ok p q Hp Hq) as (s & E & Hl & Hs). exists s. split; [exact E|]. rewrite !peval_pval.
  rewrite (pval_bound p (length s)), (pval_bound q (length s)) by lia.
  rewrite <- (sumn_trunc L (length q) (length s) (fun i => if i <? length p then zero else mul (add (coefn q i) (coefn q i)) (npow x i))).
  - rewrite <- (sumn_sub L), <- (sumn_add L). unfold pval. apply sumn_ext. intros i Hi. rewrite Hs.
    destruct (Nat.ltb_spec i (length p)); [ring|]. rewrite (coefn_out p) by lia. ring.
  - lia.
  - intros i Hi. rewrite (coefn_out q) by lia. destruct (i <? length p); [reflexivity|ring].
Qed.

Lemma pneg_ok p : p <> [] -> exists s, pneg p = Ret s /\ length s = length p /\ (forall i, coefn s i = neg (coefn p i)) /\
  forall x, peval s x = neg (peval p x).
Proof.
  intros Hp. exists (map (fun x => neg x) p). split; [apply pfrom_coef_ok; destruct p; [congruence|discriminate]|].
  split; [apply map_length|].
  assert (Hc : forall i, coefn (map (fun x => neg x) p) i = neg (coefn p i)).
  { intros i. unfold coefn. rewrite <- (map_nth (fun x => neg x)). destruct (Nat.lt_ge_cases i (length p)).
    - apply nth_indep. rewrite map_length. assumption.
    - rewrite !nth_overflow by (rewrite ?map_length; assumption). ring. }
  split; [exact Hc|]. intros x. rewrite !peval_pval. unfold pval. rewrite map_length, <- (sumn_neg L). apply sumn_ext. intros i Hi. rewrite Hc. ring.
Qed.

(** ** Multiplication *)
Lemma upd1_add_sum n (g : nat -> T) k v (h : nat -> T) : k < n ->
  sumn n (fun i => mul (upd1 g k (add (g k) v) i) (h i)) = add (sumn n (fun i => mul (g i) (h i))) (mul v (h k)).
Proof.
  intros Hk. rewrite (sumn_ext n _ (fun i => add (mul (g i) (h i)) (mul (delta k i) (mul v (h i))))).
  - rewrite (sumn_add L), (sumn_delta_l L n k (fun i => mul v (h i))) by assumption. reflexivity.
  - intros i Hi. unfold upd1, delta. destruct (Nat.eqb_spec i k); destruct (Nat.eqb_spec k i); subst; try congruence; ring.
Qed.

Definition conv (p q : list T) (np nq k : nat) : T :=
  sumn np (fun i => if (i <=? k) && (k - i <? nq) then mul (coefn p i) (coefn q (k - i)) else zero).

Lemma pmul_vec p q : p <> [] -> q <> [] ->
  exists s, pmul p q = Ret s /\ is_vec s (length p + length q - 1) (fun k => conv p q (length p) (length q) k).
Proof.
  intros Hp Hq.
  assert (Lp : 0 < length p) by (destruct p; [congruence|cbn; lia]). assert (Lq : 0 < length q) by (destruct q; [congruence|cbn; lia]).
  unfold pmul, pdegree. rewrite !usub_ok by lia. cbn [bind].
  replace (length p - 1 + (length q - 1) + 1) with (length p + length q - 1) by lia. set (n := length p + length q - 1).
  match goal with |- context [for_loop 0 (length p) ?body _] => set (bd := body) end.
  destruct (for_loop_ind (fun i s => is_vec s n (fun k => conv p q i (length q) k)) bd 0 (length p) (repeat zero n)) as (s & E & Hs).
  - lia.
  - apply is_vec_repeat.
  - intros i s Hi Hs. unfold bd.
    match goal with |- context [for_loop 0 (length q) ?body _] => set (bd2 := body) end.
    destruct (for_loop_ind (fun j s => is_vec s n (fun k => add (conv p q i (length q) k)
       (if (i <=? k) && (k - i <? j) then mul (coefn p i) (coefn q (k - i)) else zero))) bd2 0 (length q) s) as (s' & E' & Hs').
    + lia.
    + eapply is_vec_ext; [|exact Hs]. intros k Hk. cbv beta. replace ((i <=? k) && (k - i <? 0)) with false; [ring|].
      destruct (i <=? k); reflexivity.
    + intros j s1 Hj Hs1. unfold bd2.
      rewrite (is_vec_get _ _ _ i (is_vec_coefs p)), (is_vec_get _ _ _ j (is_vec_coefs q)), (is_vec_get _ _ _ (i + j) Hs1) by (unfold n; lia). cbn [bind].
      match goal with |- exists s', vset s1 _ ?v = _ /\ _ => destruct (is_vec_set s1 n _ (i + j) v Hs1) as (s2 & E2 & H2); [unfold n; lia|] end.
      exists s2. split; [exact E2|]. eapply is_vec_ext; [|exact H2]. intros k Hk. unfold upd1. cbv beta.
      destruct (Nat.eqb_spec k (i + j)).
      * subst k. replace (i + j - i) with j by lia. replace (i <=? i + j) with true by (symmetry; apply Nat.leb_le; lia).
        rewrite Nat.ltb_irrefl. replace (j <? S j) with true by (symmetry; apply Nat.ltb_lt; lia). cbn [andb]. ring.
      * destruct (Nat.leb_spec i k); [|reflexivity]. cbn [andb]. destruct (Nat.ltb_spec (k - i) j); destruct (Nat.ltb_spec (k - i) (S j)); try lia; reflexivity.
    + exists s'. split; [exact E'|]. exact Hs'.
  - rewrite E. cbn [bind]. exists s. split; [|exact Hs]. apply (pfrom_coef_len s (n - 1)). rewrite (is_vec_len _ _ _ Hs). unfold n. lia.
Qed.

Lemma conv_full p q k : conv p q (length p) (length q) k = sumn (S k) (fun i => mul (coefn p i) (coefn q (k - i))).
Proof.
  unfold conv. set (n := Nat.max (length p) (S k)).
  transitivity (sumn n (fun i => if i <=? k then mul (coefn p i) (coefn q (k - i)) else zero)).
  - symmetry. rewrite (sumn_trunc L (length p) n).
    + apply sumn_ext. intros i Hi. destruct (Nat.leb_spec i k); [|reflexivity]. cbn [andb].
      destruct (Nat.ltb_spec (k - i) (length q)); [reflexivity|]. rewrite (coefn_out q) by lia. ring.
    + unfold n. lia.
    + intros i Hi. rewrite (coefn_out p) by lia. destruct (i <=? k); ring.
  - rewrite (sumn_trunc L (S k) n).
    + apply sumn_ext. intros i Hi. destruct (Nat.leb_spec i k); [reflexivity|lia].
    + unfold n. lia.
    + intros i Hi. destruct (Nat.leb_spec i k); [lia|reflexivity].
Qed.

Lemma pmul_ok p q : p <> [] -> q <> [] ->
  exists s, pmul p q = Ret s /\ length s = length p + length q - 1 /\
    (forall k, coefn s k = sumn (S k) (fun i => mul (coefn p i) (coefn q (k - i)))).
Proof.
  intros Hp Hq. destruct (pmul_vec p q Hp Hq) as (s & E & Hs). exists s. split; [exact E|].
  split; [apply Hs|]. intros k. destruct (Nat.lt_ge_cases k (length p + length q - 1)).
  - rewrite (is_vec_coefn _ _ _ k Hs) by assumption. apply conv_full.
  - rewrite coefn_out by (rewrite (is_vec_len _ _ _ Hs); lia). symmetry. apply (sumn_zero_ext L).
    intros i Hi. destruct (Nat.lt_ge_cases i (length p)); [rewrite (coefn_out q) by lia; ring|rewrite (coefn_out p) by lia; ring].
Qed.

(** Sum over a triangle. *)
Lemma sum_triangle n (f : nat -> nat -> T) :
  sumn n (fun k => sumn (S k) (fun i => f i (k - i))) = sumn n (fun i => sumn (n - i) (fun j => f i j)).
Proof.
  induction n as [|n IH]; [reflexivity|].
  change (sumn (S n) (fun k => sumn (S k) (fun i => f i (k - i)))) with (add (sumn n (fun k => sumn (S k) (fun i => f i (k - i)))) (sumn (S n) (fun i => f i (n - i)))).
  rewrite IH.
  change (sumn (S n) (fun i => sumn (S n - i) (fun j => f i j))) with (add (sumn n (fun i => sumn (S n - i) (fun j => f i j))) (sumn (S n - n) (fun j => f n j))).
  change (sumn (S n) (fun i => f i (n - i))) with (add (sumn n (fun i => f i (n - i))) (f n (n - n))).
  replace (S n - n) with 1 by lia. rewrite Nat.sub_diag.
  rewrite (sumn_ext n (fun i => sumn (S n - i) (fun j => f i j)) (fun i => add (sumn (n - i) (fun j => f i j)) (f i (n - i)))).
  - rewrite (sumn_add L). cbn [sumn]. ring.
  - intros i Hi. replace (S n - i) with (S (n - i)) by lia. reflexivity.
Qed.

Lemma pmul_eval p q x : p <> [] -> q <> [] -> exists s, pmul p q = Ret s /\ peval s x = mul (peval p x) (peval q x).
Proof.
  intros Hp Hq. destruct (pmul_ok p q Hp Hq) as (s & E & Hl & Hs). exists s. split; [exact E|]. rewrite !peval_pval.
  assert (Lq : 0 < length q) by (destruct q; [congruence|cbn; lia]).
  unfold pval at 1. rewrite Hl. set (n := length p + length q - 1).
  rewrite (sumn_ext n _ (fun k => sumn (S k) (fun i => mul (mul (coefn p i) (npow x i)) (mul (coefn q (k - i)) (npow x (k - i)))))).
  2:{ intros k Hk. rewrite Hs. rewrite <- (sumn_mul_r L). apply sumn_ext. intros i Hi.
      replace (npow x k) with (mul (npow x i) (npow x (k - i))) by (rewrite <- npow_add; f_equal; lia). ring. }
  rewrite (sum_triangle n (fun i j => mul (mul (coefn p i) (npow x i)) (mul (coefn q j) (npow x j)))).
  rewrite (sumn_trunc L (length p) n).
  - unfold pval. rewrite <- (sumn_mul_r L). apply sumn_ext. intros i Hi. rewrite (sumn_mul_l L). f_equal.
    apply (sumn_trunc L); [unfold n; lia|]. intros j Hj. rewrite (coefn_out q) by lia. ring.
  - unfold n. lia.
  - intros i Hi. apply (sumn_zero_ext L). intros j Hj. rewrite (coefn_out p) by lia. ring.
Qed.

(** ** From roots *)
Lemma pfrom_root_vec r : r <> [] ->
  exists s, pfrom_root r = Ret s /\ length s = S (length r) /\ coefn s (length r) = one /\
    forall x, peval s x = prodn (length r) (fun i => sub x (coefn r i)).
Proof.
  intros Hr. assert (Lr : 0 < length r) by (destruct r; [congruence|cbn; lia]).
  unfold pfrom_root, poly. cbv zeta. replace (length r =? 0) with false by (symmetry; apply Nat.eqb_neq; lia). set (n := length r) in *.
  destruct (is_vec_set (repeat zero (n + 1)) (n + 1) _ n one (is_vec_repeat zero (n + 1))) as (c0 & E0 & H0); [lia|].
  rewrite E0. cbn [bind].
  match goal with |- context [for_loop 1 (n + 1) ?body _] => set (bd := body) end.
  destruct (for_loop_ind (fun i s => exists g, is_vec s (n + 1) g /\ g n = one /\ (forall j, j < n - (i - 1) -> g j = zero) /\
     forall x, sumn (S (i - 1)) (fun t => mul (g (n - (i - 1) + t)) (npow x t)) = prodn (i - 1) (fun k => sub x (coefn r k))) bd 1 (n + 1) c0)
    as (s & E & g & Hg & Hn & _ & Hx).
  - lia.
  - eexists. split; [exact H0|]. unfold upd1. rewrite Nat.eqb_refl. split; [reflexivity|]. split.
    + intros j Hj. destruct (Nat.eqb_spec j n); [lia|reflexivity].
    + intros x. cbn. replace (n - 0 + 0) with n by lia. rewrite Nat.eqb_refl. ring.
  - intros i s Hi (g & Hg & Hn & Hz & Hx). unfold bd. rewrite usub_ok by lia. cbn [bind].
    match goal with |- context [for_loop (n - i) n ?body _] => set (bd2 := body) end.
    set (rr := coefn r (i - 1)).
    destruct (for_loop_ind (fun j s => is_vec s (n + 1) (fun k => if (n - i <=? k) && (k <? j) then add (g k) (mul (mul (neg one) rr) (g (k + 1))) else g k)) bd2 (n - i) n s) as (s' & E' & Hs').
    + lia.
    + eapply is_vec_ext; [|exact Hg]. intros k Hk. destruct (Nat.leb_spec (n - i) k); destruct (Nat.ltb_spec k (n - i)); try lia; reflexivity.
    + intros j s1 Hj Hs1. unfold bd2. rewrite (is_vec_get _ _ _ (j + 1) Hs1) by lia. cbn [bind]. rewrite usub_ok by lia. cbn [bind].
      rewrite (is_vec_get _ _ _ (i - 1) (is_vec_coefs r)) by (fold n; lia). cbn [bind]. rewrite (is_vec_get _ _ _ j Hs1) by lia. cbn [bind].
      match goal with |- exists s', vset s1 _ ?v = _ /\ _ => destruct (is_vec_set s1 _ _ j v Hs1) as (s2 & E2 & H2); [lia|] end.
      exists s2. split; [exact E2|]. eapply is_vec_ext; [|exact H2]. intros k Hk. unfold upd1. cbv beta.
      replace (j <? j) with false by (symmetry; apply Nat.ltb_irrefl). replace (j + 1 <? j) with false by (symmetry; apply Nat.ltb_ge; lia).
      rewrite !andb_false_r. fold rr.
      destruct (Nat.eqb_spec k j).
      * subst k. replace (n - i <=? j) with true by (symmetry; apply Nat.leb_le; lia). replace (j <? S j) with true by (symmetry; apply Nat.ltb_lt; lia). reflexivity.
      * destruct (Nat.leb_spec (n - i) k); [|reflexivity]. cbn [andb]. destruct (Nat.ltb_spec k j); destruct (Nat.ltb_spec k (S j)); try lia; reflexivity.
    + exists s'. split; [exact E'|]. eexists. split; [exact Hs'|]. cbv beta. replace (S i - 1) with i by lia. split; [|split].
      * rewrite Nat.ltb_irrefl, andb_false_r. exact Hn.
      * intros j Hj. replace (n - i <=? j) with false by (symmetry; apply Nat.leb_gt; lia). cbn [andb]. apply Hz. lia.
      * intros x. pose proof (Hx x) as Hx1. replace (S (i - 1)) with i in Hx1 by lia.
        rewrite (sumn_ext (S i) _ (fun t => add (mul (g (n - i + t)) (npow x t)) (if t <? i then mul (mul (mul (neg one) rr) (g (n - i + t + 1))) (npow x t) else zero))).
        2:{ intros t Ht. replace (n - i <=? n - i + t) with true by (symmetry; apply Nat.leb_le; lia). cbn [andb].
            destruct (Nat.ltb_spec (n - i + t) n); destruct (Nat.ltb_spec t i); try lia; ring. }
        rewrite (sumn_add L). rewrite (sumn_first L). rewrite (Hz (n - i + 0)) by lia.
        rewrite (sumn_trunc L i (S i) (fun t => if t <? i then _ else zero)); [|lia|intros t Ht; destruct (Nat.ltb_spec t i); [lia|reflexivity]].
        assert (EP : prodn i (fun k => sub x (coefn r k)) = mul (prodn (i - 1) (fun k => sub x (coefn r k))) (sub x rr)).
        { unfold rr. destruct i as [|i0]; [lia|]. cbn [prodn]. rewrite !Nat.sub_succ, !Nat.sub_0_r. reflexivity. }
        rewrite EP, <- Hx1.
        rewrite (sumn_ext i (fun t => mul (g (n - i + S t)) (npow x (S t))) (fun t => mul x (mul (g (n - (i - 1) + t)) (npow x t)))).
        2:{ intros t Ht. replace (n - i + S t) with (n - (i - 1) + t) by lia. cbn [npow]. ring. }
        rewrite (sumn_ext i (fun t => if t <? i then _ else zero) (fun t => mul (neg rr) (mul (g (n - (i - 1) + t)) (npow x t)))).
        2:{ intros t Ht. replace (t <? i) with true by (symmetry; apply Nat.ltb_lt; lia). replace (n - i + t + 1) with (n - (i - 1) + t) by lia. ring. }
        rewrite !(sumn_mul_l L). ring.
  - rewrite E. cbn [bind]. exists s. split; [apply (pfrom_coef_len s n); rewrite (is_vec_len _ _ _ Hg); lia|].
    split; [rewrite (is_vec_len _ _ _ Hg); lia|]. split; [rewrite (is_vec_coefn _ _ _ n Hg) by lia; exact Hn|].
    intros x. rewrite peval_pval. pose proof (Hx x) as Hx1. replace (n + 1 - 1) with n in Hx1 by lia. rewrite <- Hx1.
    unfold pval. rewrite (is_vec_len _ _ _ Hg). replace (n + 1) with (S n) by lia. apply sumn_ext. intros t Ht.
    rewrite (is_vec_coefn _ _ _ t Hg) by lia. replace (n - n + t) with t by lia. reflexivity.
Qed.
End Ring.
