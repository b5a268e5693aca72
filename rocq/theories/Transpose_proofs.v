(** Lemmas about the in-place transposition. *)
From Coq Require Import Arith List Bool Lia ZArith FinFun.
From Verif Require Import Outcome Scalar Matrix_model Transpose_model Vector_model Matrix_spec Matrix_proofs.
Import ListNotations.
Local Open Scope nat_scope.

(** ** Greatest common divisor *)

Lemma gcd_loop_ok fuel : forall m n, m < fuel -> gcd_loop fuel m n = Some (Nat.gcd m n).
Proof.
  induction fuel as [|fuel IH]; intros m n H; [lia|]. simpl.
  destruct (Nat.eqb_spec m 0).
  - subst. reflexivity.
  - rewrite IH.
    + destruct m; [congruence|]. f_equal.
    + pose proof (Nat.mod_upper_bound n m n0). lia.
Qed.

Lemma rgcd_ok m n : rgcd m n = Ret (Nat.gcd m n).
Proof. unfold rgcd. rewrite gcd_loop_ok by lia. reflexivity. Qed.

(** ** Number theory of the three index maps *)

Lemma small_mult (g q x : Z) : (0 < g -> x = g * q -> - g < x < g -> q = 0)%Z.
Proof. intros. nia. Qed.

Section Arith.
Variables m n g a b : nat.
Hypothesis Hm : 0 < m.
Hypothesis Hn : 0 < n.
Hypothesis Hg : g = Nat.gcd m n.
Hypothesis Ha : m = a * g.
Hypothesis Hb : n = b * g.

Lemma ar_g : 0 < g.
Proof. destruct g; lia. Qed.
Lemma ar_a : 0 < a.
Proof. destruct a; lia. Qed.
Lemma ar_b : 0 < b.
Proof. destruct b; lia. Qed.

Lemma ar_coprime : Nat.gcd a b = 1.
Proof.
  pose proof ar_g. pose proof (Nat.gcd_div_gcd m n g ltac:(lia) Hg) as H1.
  rewrite Ha, Hb in H1. rewrite !Nat.div_mul in H1 by lia. assumption.
Qed.

Lemma ar_key1 i j : j < n -> ((j + i * n) / m) / b = i / a.
Proof.
  intros Hj. pose proof ar_g; pose proof ar_a; pose proof ar_b.
  rewrite Nat.div_div by lia.
  replace (m * b) with (n * a) by (rewrite Ha, Hb; ring).
  rewrite <- Nat.div_div by lia. f_equal.
  rewrite Nat.div_add by lia. rewrite Nat.div_small by assumption. lia.
Qed.

Lemma ar_sub i j : i / a <= j + i * n.
Proof.
  pose proof ar_a. assert (i / a <= i) by (apply Nat.div_le_upper_bound; nia). nia.
Qed.

Definition SA (j i : nat) : nat := (j + i * n - i / a) mod m.
Definition DA (i j : nat) : nat := (((i + j / b) mod m) + j * m) mod n.

Lemma SA_inj j i i' : j < n -> i < m -> i' < m -> SA j i = SA j i' -> i = i'.
Proof.
  intros Hj Hi Hi' E. unfold SA in E.
  pose proof ar_g as Pg; pose proof ar_a as Pa; pose proof ar_b as Pb; pose proof ar_coprime as Hco.
  pose proof (ar_sub i j) as L1. pose proof (ar_sub i' j) as L2.
  pose proof (Nat.div_mod i a ltac:(lia)) as D1. pose proof (Nat.div_mod i' a ltac:(lia)) as D2.
  pose proof (Nat.mod_upper_bound i a ltac:(lia)) as B1. pose proof (Nat.mod_upper_bound i' a ltac:(lia)) as B2.
  set (u := i / a) in *. set (v := i mod a) in *. set (u' := i' / a) in *. set (v' := i' mod a) in *.
  assert (Hu : u < g) by (rewrite Ha in Hi; nia).
  assert (Hu' : u' < g) by (rewrite Ha in Hi'; nia).
  pose proof (Nat.div_mod (j + i * n - u) m ltac:(lia)) as Q1.
  pose proof (Nat.div_mod (j + i' * n - u') m ltac:(lia)) as Q2.
  rewrite E in Q1.
  set (k := (j + i * n - u) / m) in *. set (k' := (j + i' * n - u') / m) in *.
  set (rr := (j + i' * n - u') mod m) in *.
  (* over Z *)
  assert (EZ : ((Z.of_nat v - Z.of_nat v') * Z.of_nat n - (Z.of_nat u - Z.of_nat u')
                = Z.of_nat m * (Z.of_nat k - Z.of_nat k' - (Z.of_nat u - Z.of_nat u') * Z.of_nat b))%Z).
  { assert (Z1 : (Z.of_nat j + Z.of_nat i * Z.of_nat n - Z.of_nat u = Z.of_nat m * Z.of_nat k + Z.of_nat rr)%Z) by nia.
    assert (Z2 : (Z.of_nat j + Z.of_nat i' * Z.of_nat n - Z.of_nat u' = Z.of_nat m * Z.of_nat k' + Z.of_nat rr)%Z) by nia.
    assert (Zi : (Z.of_nat i = Z.of_nat a * Z.of_nat u + Z.of_nat v)%Z) by nia.
    assert (Zi' : (Z.of_nat i' = Z.of_nat a * Z.of_nat u' + Z.of_nat v')%Z) by nia.
    assert (Zm : (Z.of_nat m = Z.of_nat a * Z.of_nat g)%Z) by nia.
    assert (Zn : (Z.of_nat n = Z.of_nat b * Z.of_nat g)%Z) by nia.
    rewrite Zi in Z1. rewrite Zi' in Z2. rewrite Zm, Zn in *. lia. }
  assert (Zm : (Z.of_nat m = Z.of_nat a * Z.of_nat g)%Z) by nia.
  assert (Zn : (Z.of_nat n = Z.of_nat b * Z.of_nat g)%Z) by nia.
  rewrite Zm, Zn in EZ.
  set (K := (Z.of_nat k - Z.of_nat k' - (Z.of_nat u - Z.of_nat u') * Z.of_nat b)%Z) in *.
  assert (Huu : u = u').
  { assert (Hdiv : (Z.of_nat u - Z.of_nat u' =
       Z.of_nat g * ((Z.of_nat v - Z.of_nat v') * Z.of_nat b - Z.of_nat a * K))%Z) by lia.
    set (q := ((Z.of_nat v - Z.of_nat v') * Z.of_nat b - Z.of_nat a * K)%Z) in *.
    assert (q = 0)%Z by (apply (small_mult (Z.of_nat g) q (Z.of_nat u - Z.of_nat u')); lia).
    lia. }
  rewrite Huu in EZ.
  assert (EZ2 : (Z.of_nat g * ((Z.of_nat v - Z.of_nat v') * Z.of_nat b) = Z.of_nat g * (Z.of_nat a * K))%Z) by lia.
  apply Z.mul_reg_l in EZ2; [|lia].
  assert (Hd : (Z.of_nat a | Z.of_nat v - Z.of_nat v')%Z).
  { destruct (Nat.gcd_bezout_pos a b Pa) as (x & w & Bz). rewrite Hco in Bz.
    assert (BZ : (Z.of_nat x * Z.of_nat a = 1 + Z.of_nat w * Z.of_nat b)%Z) by nia.
    exists ((Z.of_nat v - Z.of_nat v') * Z.of_nat x - Z.of_nat w * K)%Z.
    rewrite Z.mul_sub_distr_r. rewrite <- Z.mul_assoc, BZ.
    rewrite <- (Z.mul_assoc (Z.of_nat w)). rewrite (Z.mul_comm K), <- EZ2. ring. }
  destruct Hd as [t Ht].
  assert (t = 0)%Z by (apply (small_mult (Z.of_nat a) t (Z.of_nat v - Z.of_nat v')); lia).
  assert (v = v') by lia.
  rewrite D1, D2. congruence.
Qed.

Lemma DA_lt i j : DA i j < n.
Proof. apply Nat.mod_upper_bound. lia. Qed.

Lemma SA_lt j i : SA j i < m.
Proof. apply Nat.mod_upper_bound. lia. Qed.

(** The row [SA] finds for the element that [DA] sends to column [j]. *)
Lemma DA_SA r q : r < m -> q < n ->
  let l := (r + q / b) mod m + q * m in
  l < m * n /\ l / m = q /\ l mod m = (r + q / b) mod m /\ l mod n = DA r q /\ SA (l mod n) (l / n) = r.
Proof.
  intros Hr Hq l.
  pose proof ar_g as Pg; pose proof ar_a as Pa; pose proof ar_b as Pb.
  pose proof (Nat.mod_upper_bound (r + q / b) m ltac:(lia)) as Bp.
  set (p := (r + q / b) mod m) in *.
  assert (Hl : l < m * n) by (unfold l; nia).
  assert (Hq' : l / m = q).
  { unfold l. rewrite Nat.div_add by lia. rewrite Nat.div_small by assumption. lia. }
  assert (Hp' : l mod m = p).
  { unfold l. rewrite Nat.mod_add by lia. apply Nat.mod_small. assumption. }
  split; [assumption|]. split; [assumption|]. split; [assumption|]. split; [reflexivity|].
  assert (Hln : l = l mod n + (l / n) * n).
  { rewrite (Nat.div_mod l n) at 1 by lia. lia. }
  pose proof (Nat.mod_upper_bound l n ltac:(lia)) as Bj.
  pose proof (ar_key1 (l / n) (l mod n) Bj) as K1.
  rewrite <- Hln in K1. rewrite Hq' in K1.
  unfold SA. rewrite <- Hln. rewrite <- K1.
  pose proof (ar_sub (l / n) (l mod n)) as Ls. rewrite <- Hln, <- K1 in Ls.
  pose proof (Nat.div_mod (r + q / b) m ltac:(lia)) as Qd. fold p in Qd.
  set (k := (r + q / b) / m) in *.
  assert (EE : l - q / b + k * m = r + q * m) by (unfold l in *; nia).
  rewrite <- (Nat.mod_add (l - q / b) k m) by lia. rewrite EE.
  rewrite Nat.mod_add by lia. apply Nat.mod_small. assumption.
Qed.

Lemma DA_inj r q q' : r < m -> q < n -> q' < n -> DA r q = DA r q' -> q = q'.
Proof.
  intros Hr Hq Hq' E.
  destruct (DA_SA r q Hr Hq) as (L1 & L2 & L3 & L4 & L5).
  destruct (DA_SA r q' Hr Hq') as (L1' & L2' & L3' & L4' & L5').
  set (l := (r + q / b) mod m + q * m) in *. set (l' := (r + q' / b) mod m + q' * m) in *.
  assert (Hi : l / n < m) by (apply Nat.div_lt_upper_bound; nia).
  assert (Hi' : l' / n < m) by (apply Nat.div_lt_upper_bound; nia).
  assert (Ej : l mod n = l' mod n) by congruence.
  assert (Ei : l / n = l' / n).
  { apply (SA_inj (l mod n)); auto.
    - apply Nat.mod_upper_bound; lia.
    - rewrite Ej at 2. congruence. }
  assert (l = l').
  { rewrite (Nat.div_mod l n), (Nat.div_mod l' n) by lia. congruence. }
  congruence.
Qed.

(** Where the element read by the third pass comes from. *)
Lemma SA_source i j : i < m -> j < n ->
  let r := SA j i in
  let q := (j + i * n) / m in
  r < m /\ q < n /\ DA r q = j /\ (r + q / b) mod m = (j + i * n) mod m.
Proof.
  intros Hi Hj r q. pose proof ar_a as Pa; pose proof ar_b as Pb.
  assert (Hq : q < n) by (apply Nat.div_lt_upper_bound; nia).
  pose proof (ar_key1 i j Hj) as K1. fold q in K1.
  pose proof (ar_sub i j) as Ls.
  assert (Ep : (r + q / b) mod m = (j + i * n) mod m).
  { unfold r, SA. rewrite Nat.add_mod_idemp_l by lia. rewrite K1. f_equal. lia. }
  split; [apply SA_lt|]. split; [assumption|]. split; [|assumption].
  unfold DA. rewrite Ep.
  replace ((j + i * n) mod m + q * m) with (j + i * n).
  - rewrite Nat.mod_add by lia. apply Nat.mod_small. assumption.
  - unfold q. rewrite (Nat.div_mod (j + i * n) m) at 1 by lia. lia.
Qed.

End Arith.

(** ** The passes *)

Section Passes.
Context {T : Type}.
Implicit Types (A : matrix T) (temp : list (option T)).

Lemma tread_ok temp k x : vget temp k = Ret (Some x) -> tread temp k = Ret x.
Proof. unfold tread. intros ->. reflexivity. Qed.

Lemma twrite_spec temp k v : k < length temp ->
  exists temp', twrite temp k v = Ret temp' /\ length temp' = length temp /\
    vget temp' k = Ret (Some v) /\ forall i, i <> k -> vget temp' i = vget temp i.
Proof.
  intros H. unfold twrite. rewrite vset_ok by assumption.
  eexists; split; [reflexivity|]. split; [apply length_list_upd|]. split.
  - rewrite vget_list_upd by assumption. rewrite Nat.eqb_refl. reflexivity.
  - intros i Hi. rewrite vget_list_upd by assumption. apply Nat.eqb_neq in Hi. rewrite Hi. reflexivity.
Qed.

Lemma fill_seq temp len (h : nat -> T) (body : nat -> list (option T) -> outcome (list (option T))) :
  len <= length temp ->
  (forall i t, i < len -> body i t = twrite t i (h i)) ->
  exists temp', for_loop 0 len body temp = Ret temp' /\ length temp' = length temp /\
    forall i, i < len -> vget temp' i = Ret (Some (h i)).
Proof.
  intros Hl Hb.
  destruct (for_loop_ind (fun k t => length t = length temp /\ forall i, i < k -> vget t i = Ret (Some (h i)))
     body 0 len temp) as (t & E & H1 & H2).
  - lia.
  - split; [reflexivity|]. intros; lia.
  - intros i t Hi (L & H). rewrite Hb by lia.
    destruct (twrite_spec t i (h i)) as (t' & E' & L' & W & F); [lia|].
    exists t'. split; [assumption|]. split; [congruence|].
    intros k Hk. destruct (Nat.eq_dec k i); [subst; assumption|]. rewrite F by assumption. apply H. lia.
  - eauto.
Qed.

Lemma fill_scatter temp len (D : nat -> nat) (h : nat -> T)
  (body : nat -> list (option T) -> outcome (list (option T))) :
  len <= length temp ->
  (forall i, i < len -> D i < len) ->
  (forall i i', i < len -> i' < len -> D i = D i' -> i = i') ->
  (forall i t, i < len -> body i t = twrite t (D i) (h i)) ->
  exists temp', for_loop 0 len body temp = Ret temp' /\ length temp' = length temp /\
    forall i, i < len -> vget temp' (D i) = Ret (Some (h i)).
Proof.
  intros Hl HD Hinj Hb.
  destruct (for_loop_ind (fun k t => length t = length temp /\ forall i, i < k -> vget t (D i) = Ret (Some (h i)))
     body 0 len temp) as (t & E & H1 & H2).
  - lia.
  - split; [reflexivity|]. intros; lia.
  - intros i t Hi (L & H). rewrite Hb by lia.
    destruct (twrite_spec t (D i) (h i)) as (t' & E' & L' & W & F).
    { specialize (HD i ltac:(lia)). lia. }
    exists t'. split; [assumption|]. split; [congruence|].
    intros k Hk. destruct (Nat.eq_dec k i); [subst; assumption|].
    rewrite F; [apply H; lia|]. intro Ek. apply Hinj in Ek; lia.
  - eauto.
Qed.

Lemma copy_column_spec A m n f temp j (h : nat -> T) :
  is_mat A m n f -> j < n -> (forall i, i < m -> vget temp i = Ret (Some (h i))) ->
  exists A', copy_column A temp j = Ret A' /\ is_mat A' m n (fun a b => if b =? j then h a else f a b).
Proof.
  intros HA Hj Ht. unfold copy_column. rewrite (is_mat_rows _ _ _ _ HA).
  apply col_loop_spec; auto. intros i A' Hi _. rewrite (tread_ok _ _ _ (Ht i Hi)). reflexivity.
Qed.

Lemma copy_row_spec A m n f temp i (h : nat -> T) :
  is_mat A m n f -> i < m -> (forall j, j < n -> vget temp j = Ret (Some (h j))) ->
  exists A', copy_row A temp i = Ret A' /\ is_mat A' m n (fun a b => if a =? i then h b else f a b).
Proof.
  intros HA Hi Ht. unfold copy_row. rewrite (is_mat_cols _ _ _ _ HA).
  apply row_loop_spec; auto. intros j A' Hj _. rewrite (tread_ok _ _ _ (Ht j Hj)). reflexivity.
Qed.

(** A gather pass over the columns: [A'(i,j) = A(G i j, j)]. *)
Lemma gather_pass A m n f temp (G : nat -> nat -> nat)
  (idx : nat -> nat -> nat -> nat -> outcome nat) :
  is_mat A m n f -> m <= length temp ->
  (forall i j, i < m -> j < n -> G i j < m /\ idx m n i j = Ret (G i j)) ->
  exists A' temp',
    for_loop 0 n (fun j st =>
      let! temp := for_loop 0 (rows (fst st)) (fun i temp =>
                     let! g := idx (rows (fst st)) (cols (fst st)) i j in
                     let! x := mget (fst st) g j in
                     twrite temp i x) (snd st) in
      let! A := copy_column (fst st) temp j in
      Ret (A, temp)) (A, temp) = Ret (A', temp') /\
    is_mat A' m n (fun i j => f (G i j) j) /\ length temp' = length temp.
Proof.
  intros HA Hlen HG.
  set (body := fun j (st : matrix T * list (option T)) =>
      let! temp := for_loop 0 (rows (fst st)) (fun i temp =>
                     let! g := idx (rows (fst st)) (cols (fst st)) i j in
                     let! x := mget (fst st) g j in
                     twrite temp i x) (snd st) in
      let! A := copy_column (fst st) temp j in
      Ret (A, temp)).
  destruct (for_loop_ind (fun k st =>
     is_mat (fst st) m n (fun a b => if b <? k then f (G a b) b else f a b) /\ length (snd st) = length temp)
     body 0 n (A, temp)) as ((A' & temp') & E & H1 & H2).
  - lia.
  - simpl. split; [|reflexivity]. eapply is_mat_ext; [|exact HA]. reflexivity.
  - intros j (A1 & t1) Hj (H1 & L1). simpl in *. unfold body; simpl.
    rewrite (is_mat_rows _ _ _ _ H1), (is_mat_cols _ _ _ _ H1).
    destruct (fill_seq t1 m (fun i => f (G i j) j) (fun i temp =>
                     let! g := idx m n i j in
                     let! x := mget A1 g j in
                     twrite temp i x)) as (t2 & E2 & L2 & F2).
    + lia.
    + intros i t Hi. destruct (HG i j Hi ltac:(lia)) as [Hlt Hidx].
      rewrite Hidx. simpl. rewrite (is_mat_get _ _ _ _ _ _ H1 Hlt) by lia. simpl.
      replace (j <? j) with false by (symmetry; apply Nat.ltb_ge; lia). reflexivity.
    + rewrite E2. simpl.
      destruct (copy_column_spec A1 m n _ t2 j (fun i => f (G i j) j) H1) as (A2 & E3 & H3); [lia|assumption|].
      rewrite E3. simpl. eexists; split; [reflexivity|]. simpl. split; [|congruence].
      eapply is_mat_ext; [|exact H3]. intros a b Ha Hb. simpl. bcase.
  - exists A', temp'. simpl in *. split; [exact E|]. split; [|assumption].
    eapply is_mat_ext; [|exact H1]. intros a b Ha Hb. simpl. bcase.
Qed.

(** A scatter pass over the rows: [A'(i, D i j) = A(i,j)] for a row-wise injective [D]. *)
Lemma scatter_pass A m n f temp (D : nat -> nat -> nat)
  (idx : nat -> nat -> nat -> nat -> outcome nat) :
  is_mat A m n f -> n <= length temp ->
  (forall i j, i < m -> j < n -> D i j < n /\ idx m n i j = Ret (D i j)) ->
  (forall i j j', i < m -> j < n -> j' < n -> D i j = D i j' -> j = j') ->
  exists A' temp' f',
    for_loop 0 m (fun i st =>
      let! temp := for_loop 0 (cols (fst st)) (fun j temp =>
                     let! d := idx (rows (fst st)) (cols (fst st)) i j in
                     let! x := mget (fst st) i j in
                     twrite temp d x) (snd st) in
      let! A := copy_row (fst st) temp i in
      Ret (A, temp)) (A, temp) = Ret (A', temp') /\
    is_mat A' m n f' /\ (forall i j, i < m -> j < n -> f' i (D i j) = f i j) /\
    length temp' = length temp.
Proof.
  intros HA Hlen HD Hinj.
  set (body := fun i (st : matrix T * list (option T)) =>
      let! temp := for_loop 0 (cols (fst st)) (fun j temp =>
                     let! d := idx (rows (fst st)) (cols (fst st)) i j in
                     let! x := mget (fst st) i j in
                     twrite temp d x) (snd st) in
      let! A := copy_row (fst st) temp i in
      Ret (A, temp)).
  destruct (for_loop_ind (fun k st =>
     exists f', is_mat (fst st) m n f' /\
       (forall i j, i < m -> j < n -> if i <? k then f' i (D i j) = f i j else f' i j = f i j) /\
       length (snd st) = length temp)
     body 0 m (A, temp)) as ((A' & temp') & E & f' & H1 & H2 & H3).
  - lia.
  - exists f. simpl. split; [assumption|]. split; [|reflexivity]. intros. reflexivity.
  - intros i (A1 & t1) Hi (f1 & H1 & P1 & L1). simpl in *. unfold body; simpl.
    rewrite (is_mat_rows _ _ _ _ H1), (is_mat_cols _ _ _ _ H1).
    destruct (fill_scatter t1 n (D i) (fun j => f1 i j) (fun j temp =>
                     let! d := idx m n i j in
                     let! x := mget A1 i j in
                     twrite temp d x)) as (t2 & E2 & L2 & F2).
    + lia.
    + intros j Hj. apply HD; lia.
    + intros j j' Hj Hj'. apply Hinj; lia.
    + intros j t Hj. destruct (HD i j ltac:(lia) Hj) as [_ Hidx]. rewrite Hidx. simpl.
      rewrite (is_mat_get _ _ _ _ _ _ H1) by lia. reflexivity.
    + rewrite E2. simpl.
      assert (Hsurj : forall c, c < n -> exists j, j < n /\ D i j = c).
      { assert (HbF : bFun n (D i)) by (intros x Hx; apply HD; lia).
        destruct (bInjective_bSurjective HbF) as [Hs _].
        apply Hs. intros x y Hx Hy. apply Hinj; lia. }
      assert (Hall : forall c, c < n -> exists x, vget t2 c = Ret (Some x)).
      { intros c Hc. destruct (Hsurj c Hc) as (j & Hj & <-). eauto. }
      set (h := fun c => match vget t2 c with Ret (Some x) => x | _ => f1 i c end).
      destruct (copy_row_spec A1 m n _ t2 i h H1) as (A2 & E3 & H4); [lia| |].
      { intros c Hc. destruct (Hall c Hc) as (x & Ex). unfold h. rewrite Ex. reflexivity. }
      rewrite E3. simpl. eexists; split; [reflexivity|].
      exists (fun a b => if a =? i then h b else f1 a b). simpl.
      split; [assumption|]. split; [|congruence].
      intros a b Ha Hb. specialize (P1 a b Ha Hb).
      destruct (Nat.eqb_spec a i).
      * subst. replace (i <? S i) with true by (symmetry; apply Nat.ltb_lt; lia).
        replace (i <? i) with false in P1 by (symmetry; apply Nat.ltb_ge; lia).
        unfold h. rewrite F2 by assumption. assumption.
      * destruct (a <? i) eqn:E1; destruct (a <? S i) eqn:E4; auto;
        [apply Nat.ltb_lt in E1; apply Nat.ltb_ge in E4 | apply Nat.ltb_ge in E1; apply Nat.ltb_lt in E4]; lia.
  - exists A', temp', f'. simpl in *. split; [exact E|]. split; [assumption|]. split; [|assumption].
    intros i j Hi Hj. specialize (H2 i j Hi Hj).
    replace (i <? m) with true in H2 by (symmetry; apply Nat.ltb_lt; lia). assumption.
Qed.

(** The permutation actually computed, for all m, n >= 1. *)
Lemma mtranspose_perm A m n f :
  0 < m -> 0 < n -> is_mat A m n f ->
  exists B, mtranspose A = Ret B /\ dim B = (n, m) /\ length (data B) = n * m /\
    forall i j, i < m -> j < n ->
      vget (data B) (j * m + i) = Ret (f ((j + i * n) mod m) ((j + i * n) / m)).
Proof.
  intros Hm Hn HA.
  set (g := Nat.gcd m n). set (a := m / g). set (b := n / g).
  assert (Hg0 : g <> 0).
  { unfold g. intro H. apply Nat.gcd_eq_0 in H. lia. }
  assert (Ha : m = a * g).
  { unfold a. destruct (Nat.gcd_divide_l m n) as [x Hx]. fold g in Hx. rewrite Hx at 1.
    rewrite Hx. rewrite Nat.div_mul by assumption. reflexivity. }
  assert (Hb : n = b * g).
  { unfold b. destruct (Nat.gcd_divide_r m n) as [x Hx]. fold g in Hx. rewrite Hx at 1.
    rewrite Hx. rewrite Nat.div_mul by assumption. reflexivity. }
  assert (Hg : g = Nat.gcd m n) by reflexivity.
  clearbody g.
  assert (Pa : 0 < a) by nia. assert (Pb : 0 < b) by nia.
  unfold mtranspose. rewrite (is_mat_rows _ _ _ _ HA), (is_mat_cols _ _ _ _ HA).
  rewrite rgcd_ok. rewrite <- Hg. simpl.
  unfold udiv at 1 2. replace (g =? 0) with false by (symmetry; apply Nat.eqb_neq; assumption). simpl.
  fold a b.
  set (temp := repeat (@None T) (Nat.max m n)).
  assert (Lt : length temp = Nat.max m n) by apply repeat_length.
  (* pass 1 *)
  assert (P1 : exists A1 t1, (if 1 <? g then pass1 b (A, temp) else Ret (A, temp)) = Ret (A1, t1) /\
     is_mat A1 m n (fun i j => f ((i + j / b) mod m) j) /\ length t1 = length temp).
  { destruct (Nat.ltb_spec 1 g).
    - unfold pass1. simpl. rewrite (is_mat_cols _ _ _ _ HA).
      destruct (gather_pass A m n f temp (fun i j => (i + j / b) mod m)
        (fun m n i j => gather m i j b) HA) as (A1 & t1 & E & H1 & H2).
      + lia.
      + intros i j Hi Hj. split; [apply Nat.mod_upper_bound; lia|].
        unfold gather, udiv, umod. replace (b =? 0) with false by (symmetry; apply Nat.eqb_neq; lia). simpl.
        replace (m =? 0) with false by (symmetry; apply Nat.eqb_neq; lia). reflexivity.
      + exists A1, t1. split; [exact E|]. auto.
    - exists A, temp. split; [reflexivity|]. split; [|reflexivity].
      eapply is_mat_ext; [|exact HA]. intros i j Hi Hj.
      assert (g = 1) by lia. assert (b = n) by lia.
      rewrite Nat.div_small by lia. rewrite Nat.add_0_r. rewrite Nat.mod_small by assumption. reflexivity. }
  destruct P1 as (A1 & t1 & E1 & H1 & L1). rewrite E1. simpl.
  (* pass 2 *)
  assert (P2 : exists A2 t2 f2, pass2 b (A1, t1) = Ret (A2, t2) /\ is_mat A2 m n f2 /\
     (forall i j, i < m -> j < n -> f2 i (DA m n b i j) = f ((i + j / b) mod m) j) /\ length t2 = length temp).
  { unfold pass2. cbn [fst]. rewrite (is_mat_rows _ _ _ _ H1).
    destruct (scatter_pass A1 m n _ t1 (DA m n b) (fun m n i j => scatter_da m n i j b) H1)
      as (A2 & t2 & f2 & E & H2 & H3 & H4).
    - lia.
    - intros i j Hi Hj. split; [eapply DA_lt; eauto|].
      unfold scatter_da, udiv, umod. replace (b =? 0) with false by (symmetry; apply Nat.eqb_neq; lia). simpl.
      replace (m =? 0) with false by (symmetry; apply Nat.eqb_neq; lia). simpl.
      replace (n =? 0) with false by (symmetry; apply Nat.eqb_neq; lia). reflexivity.
    - intros i j j' Hi Hj Hj'. apply (DA_inj m n g a b); auto.
    - exists A2, t2, f2. split; [exact E|]. split; [assumption|]. split; [exact H3|]. congruence. }
  destruct P2 as (A2 & t2 & f2 & E2 & H2 & HD2 & L2). rewrite E2. cbn [bind].
  (* pass 3 *)
  assert (P3 : exists A3 t3, pass3 a (A2, t2) = Ret (A3, t3) /\
     is_mat A3 m n (fun i j => f2 (SA m n a j i) j)).
  { unfold pass3. cbn [fst]. rewrite (is_mat_cols _ _ _ _ H2).
    destruct (gather_pass A2 m n f2 t2 (fun i j => SA m n a j i) (fun m n i j => gather_sa m n i j a) H2)
      as (A3 & t3 & E & H3 & H4).
    - lia.
    - intros i j Hi Hj. split; [eapply SA_lt; eauto|].
      unfold gather_sa, udiv, umod. replace (a =? 0) with false by (symmetry; apply Nat.eqb_neq; lia). simpl.
      rewrite usub_ok by (apply (ar_sub m n g a b); auto). simpl.
      replace (m =? 0) with false by (symmetry; apply Nat.eqb_neq; lia). reflexivity.
    - exists A3, t3. split; [exact E|]. assumption. }
  destruct P3 as (A3 & t3 & E3 & H3). rewrite E3. cbn [bind fst].
  eexists. split; [reflexivity|].
  rewrite (is_mat_rows _ _ _ _ H3), (is_mat_cols _ _ _ _ H3).
  split; [reflexivity|]. split; [cbn [data]; rewrite (is_mat_len _ _ _ _ H3); lia|].
  intros i j Hi Hj. cbn [data].
  rewrite (is_mat_vget _ _ _ _ _ _ H3) by assumption. f_equal.
  destruct (SA_source m n g a b Hm Hn Hg Ha Hb i j Hi Hj) as (R1 & R2 & R3 & R4).
  rewrite <- R3 at 2. rewrite HD2 by assumption. rewrite R4. reflexivity.
Qed.

Lemma mget_vget A i j : i < rows A -> j < cols A -> mget A i j = vget (data A) (j * rows A + i).
Proof. intros. apply mget_in; assumption. Qed.

(** Correct on square matrices and vectors. *)
Lemma mtranspose_good A m n f :
  0 < m -> 0 < n -> (m = n \/ m = 1 \/ n = 1) -> is_mat A m n f ->
  exists B, mtranspose A = Ret B /\ is_mat B n m (fun i j => f j i).
Proof.
  intros Hm Hn Hs HA.
  destruct (mtranspose_perm A m n f Hm Hn HA) as (B & E & D & L & H).
  exists B. split; [assumption|].
  assert (Hr : rows B = n) by (unfold dim in D; congruence).
  assert (Hc : cols B = m) by (unfold dim in D; congruence).
  split; [assumption|]. split; [assumption|].
  intros i j Hi Hj. rewrite mget_in by lia. rewrite Hr.
  destruct Hs as [Hs | [Hs | Hs]].
  - subst n. rewrite H by assumption. rewrite Nat.mod_add, Nat.div_add by lia.
    rewrite Nat.mod_small, Nat.div_small by assumption. reflexivity.
  - subst m. assert (j = 0) by lia; subst j. replace (0 * n + i) with (i * 1 + 0) by lia.
    rewrite H by lia. rewrite Nat.mod_1_r, Nat.div_1_r. f_equal. f_equal. lia.
  - subst n. assert (i = 0) by lia; subst i. replace (j * 1 + 0) with (0 * m + j) by lia.
    rewrite H by lia. replace (0 + j * 1) with j by lia.
    rewrite Nat.mod_small, Nat.div_small by assumption. reflexivity.
Qed.

(** Wrong on every other shape: entry (1,0) of the result is not entry (0,1) of the argument but
    the entry stored at position [n]. *)
Lemma mtranspose_bad_entry A m n f :
  2 <= m -> 2 <= n -> is_mat A m n f ->
  exists B, mtranspose A = Ret B /\ dim B = (n, m) /\
    mget B 1 0 = Ret (f (n mod m) (n / m)).
Proof.
  intros Hm Hn HA.
  destruct (mtranspose_perm A m n f ltac:(lia) ltac:(lia) HA) as (B & E & D & L & H).
  exists B. split; [assumption|]. split; [assumption|].
  assert (Hr : rows B = n) by (unfold dim in D; congruence).
  assert (Hc : cols B = m) by (unfold dim in D; congruence).
  rewrite mget_in by lia. rewrite Hr.
  replace (0 * n + 1) with (0 * m + 1) by lia. rewrite H by lia.
  replace (0 + 1 * n) with n by lia. reflexivity.
Qed.

Lemma bad_entry_differs m n : 2 <= m -> 2 <= n -> m <> n -> ~ (n mod m = 0 /\ n / m = 1).
Proof. intros Hm Hn Hne [H1 H2]. pose proof (Nat.div_mod n m ltac:(lia)). nia. Qed.

Lemma bad_entry_in m n : 2 <= m -> 2 <= n -> n mod m < m /\ n / m < n.
Proof.
  intros Hm Hn. split; [apply Nat.mod_upper_bound; lia|]. apply Nat.div_lt_upper_bound; nia.
Qed.

(** Twice is the identity on every non-empty shape. *)
Lemma mtranspose_twice A m n f :
  0 < m -> 0 < n -> is_mat A m n f ->
  exists B, mtranspose A = Ret B /\ mtranspose B = Ret A.
Proof.
  intros Hm Hn HA.
  destruct (mtranspose_perm A m n f Hm Hn HA) as (B & E & D & L & H).
  exists B. split; [assumption|].
  assert (Hr : rows B = n) by (unfold dim in D; congruence).
  assert (Hc : cols B = m) by (unfold dim in D; congruence).
  assert (HB : exists g, is_mat B n m g).
  { destruct m as [|m']; [lia|]. destruct n as [|n']; [lia|].
    exists (fun i j => f ((( (j * S n' + i) / S m') + ((j * S n' + i) mod S m') * S n') mod S m')
                         ((( (j * S n' + i) / S m') + ((j * S n' + i) mod S m') * S n') / S m')).
    split; [assumption|]. split; [assumption|]. intros i j Hi Hj.
    rewrite mget_in by lia. rewrite Hr.
    assert (Hk : j * S n' + i < S m' * S n') by nia.
    rewrite <- H.
    - f_equal. rewrite (Nat.div_mod (j * S n' + i) (S m')) at 1 by lia. lia.
    - apply Nat.mod_upper_bound. lia.
    - apply Nat.div_lt_upper_bound; lia. }
  destruct HB as (g & HB).
  destruct (mtranspose_perm B n m g Hn Hm HB) as (C & EC & DC & LC & HC).
  rewrite EC. f_equal.
  assert (Hrc : rows C = m) by (unfold dim in DC; congruence).
  assert (Hcc : cols C = n) by (unfold dim in DC; congruence).
  assert (HdA : data C = data A).
  { apply list_ext_vget.
    - rewrite LC. rewrite (is_mat_len _ _ _ _ HA). lia.
    - intros k Hk. rewrite LC in Hk.
      (* k = j' * n + i' *)
      pose proof (Nat.div_mod k n ltac:(lia)) as Dk.
      pose proof (Nat.mod_upper_bound k n ltac:(lia)) as Bk.
      assert (Bd : k / n < m) by (apply Nat.div_lt_upper_bound; lia).
      set (i' := k mod n) in *. set (j' := k / n) in *.
      replace k with (j' * n + i') at 1 by lia. rewrite HC by assumption.
      (* g at linear index j' + i' * m of B *)
      pose proof (Nat.div_mod (j' + i' * m) n ltac:(lia)) as Dl.
      pose proof (Nat.mod_upper_bound (j' + i' * m) n ltac:(lia)) as Bl.
      assert (Bq : (j' + i' * m) / n < m) by (apply Nat.div_lt_upper_bound; nia).
      rewrite <- (is_mat_vget _ _ _ _ _ _ HB Bl Bq).
      replace ((j' + i' * m) / n * n + (j' + i' * m) mod n) with (i' * m + j') by lia.
      rewrite H by assumption.
      pose proof (Nat.div_mod (i' + j' * n) m ltac:(lia)) as Da.
      pose proof (Nat.mod_upper_bound (i' + j' * n) m ltac:(lia)) as Ba.
      assert (Bc : (i' + j' * n) / m < n) by (apply Nat.div_lt_upper_bound; nia).
      rewrite <- (is_mat_vget _ _ _ _ _ _ HA Ba Bc). f_equal. lia. }
  destruct A as [ra ca da]. destruct C as [rc cc dc]. simpl in *.
  pose proof (is_mat_rows _ _ _ _ HA). pose proof (is_mat_cols _ _ _ _ HA). simpl in *. congruence.
Qed.

Lemma mtranspose_00 A : rows A = 0 -> cols A = 0 -> mtranspose A = Panic.
Proof. intros H1 H2. unfold mtranspose. rewrite H1, H2. reflexivity. Qed.

End Passes.
