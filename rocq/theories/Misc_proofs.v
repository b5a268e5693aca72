(** Lemmas on printed text, random matrices, iteration and comparison. *)
From Coq Require Import Ascii String Decimal DecimalString DecimalFacts DecimalNat Arith Lia List Bool.
From Verif Require Import Outcome Scalar Matrix_model Vector_model Int_model Complex_model Approx_model Poly_model Matrix_spec Matrix_proofs Vector_proofs Misc_model Misc_spec.
Import ListNotations.

(** ** Splitting *)
Lemma split_at {A} (c : A) : forall a a' r r', ~ In c a -> ~ In c a' -> a ++ c :: r = a' ++ c :: r' -> a = a' /\ r = r'.
Proof.
  induction a as [|x a IH]; intros [|x' a'] r r' H H' E; cbn in *.
  - injection E as ->. auto.
  - injection E as <- _. elim H'. auto.
  - injection E as -> _. elim H. auto.
  - injection E as -> E. destruct (IH a' r r') as [-> ->]; auto.
Qed.
Lemma split_not {A} (c : A) a a' r : ~ In c a' -> a ++ c :: r <> a'.
Proof. intros H E. apply H. rewrite <- E. apply in_or_app. right. left. reflexivity. Qed.

(** Pieces without blanks can be read off a text joined by " + ". *)
Lemma join_inj : forall l l', (forall x, In x l -> ~ In " "%char x /\ x <> []) -> (forall x, In x l' -> ~ In " "%char x /\ x <> []) ->
  join (lits " + ") l = join (lits " + ") l' -> l = l'.
Proof.
  induction l as [|x l IH]; intros l' H H' E.
  - destruct l' as [|y l']; [reflexivity|]. destruct (H' y) as [_ Hn]; [now left|]. destruct y as [|c y]; [congruence|].
    destruct l'; cbn in E; discriminate E.
  - destruct l' as [|y l'].
    + destruct (H x) as [_ Hn]; [now left|]. destruct x as [|c x]; [congruence|]. destruct l; cbn in E; discriminate E.
    + destruct (H x) as [Hx _]; [now left|]. destruct (H' y) as [Hy _]; [now left|].
      destruct l as [|x2 l], l' as [|y2 l'].
      * cbn in E. now subst.
      * cbn [join] in E. change (lits " + " ++ ?r) with (" "%char :: lits "+ " ++ r) in E. symmetry in E. now apply split_not in E.
      * cbn [join] in E. change (lits " + " ++ ?r) with (" "%char :: lits "+ " ++ r) in E. now apply split_not in E.
      * set (r := x2 :: l) in *. set (r' := y2 :: l') in *.
        assert (E2 : x ++ " "%char :: (lits "+ " ++ join (lits " + ") r) = y ++ " "%char :: (lits "+ " ++ join (lits " + ") r')) by exact E.
        apply split_at in E2; auto. destruct E2 as [-> E2]. apply app_inv_head in E2. f_equal. apply IH; auto; intros z Hz; [apply H|apply H']; now right.
Qed.

Lemma lits_app a b : lits (a ++ b)%string = lits a ++ lits b.
Proof. induction a; cbn; [reflexivity|]. unfold lits in *. cbn. now rewrite IHa. Qed.
Lemma lits_inj a b : lits a = lits b -> a = b.
Proof. intros E. rewrite <- (string_of_list_ascii_of_string a), <- (string_of_list_ascii_of_string b). unfold lits in E. now rewrite E. Qed.
Lemma show_usize_inj i j : show_usize i = show_usize j -> i = j.
Proof.
  intros E. apply lits_inj in E. apply (f_equal NilZero.uint_of_string) in E.
  assert (N : forall n, Nat.to_uint n <> Nil) by (intros n E0; apply (DecimalFacts.unorm_nonnil (Nat.to_uint n)); rewrite <- Unsigned.to_of, Unsigned.of_to; exact E0).
  rewrite !NilZero.usu in E by apply N. injection E as E. now apply Unsigned.to_uint_inj.
Qed.
Definition digit (c : ascii) : Prop := In c (lits "0123456789").
Lemma uint_digits u : forall c, In c (lits (NilEmpty.string_of_uint u)) -> digit c.
Proof.
  induction u; intros c H; cbn in H; [contradiction|..]; (destruct H as [<-|H]; [unfold digit; cbn; tauto|now apply IHu]).
Qed.
Lemma usize_digits i c : In c (show_usize i) -> digit c.
Proof.
  unfold show_usize, NilZero.string_of_uint. destruct (Nat.to_uint i) eqn:E; [|rewrite <- E; apply uint_digits..].
  intros [<-|[]]. unfold digit. cbn. tauto.
Qed.
Lemma digit_not c d : digit c -> ~ digit d -> c <> d.
Proof. intros H H' ->. auto. Qed.

Section Poly.
Context {T : Type} {O : Ops T} (show : T -> text) (eps : T).
Definition term_text (ia : nat * T) : text := show (snd ia) ++ power_text (fst ia).

Lemma pfmt_gen : forall p k (first : bool) out, (first = false -> (0 < k)%nat) ->
  fold_left (pfmt_step show eps) (combine (seq k (length p)) p) (first, out) =
  (first && match filter (fun ia => sabs_diff_ne (snd ia) zero eps) (combine (seq k (length p)) p) with [] => true | _ => false end,
   out ++ match filter (fun ia => sabs_diff_ne (snd ia) zero eps) (combine (seq k (length p)) p) with
          | [] => []
          | ts => (if first then [] else lits " + ") ++ join (lits " + ") (map term_text ts)
          end).
Proof.
  induction p as [|a p IH]; intros k first out Hk; cbn [length seq combine fold_left filter].
  - now rewrite andb_true_r, app_nil_r.
  - unfold pfmt_step at 2. cbn [snd fst]. destruct (sabs_diff_ne a zero eps) eqn:E.
    + rewrite IH by (intros; lia). cbn [map]. rewrite andb_false_r. cbn [andb]. f_equal.
      assert (Et : (if (1 <? k)%nat then if first then out ++ show a ++ lits "x^" ++ show_usize k else out ++ lits " + " ++ show a ++ lits "x^" ++ show_usize k
               else if (k =? 0)%nat then out ++ show a else if first then out ++ show a ++ lits "x" else out ++ lits " + " ++ show a ++ lits "x")
              = out ++ (if first then [] else lits " + ") ++ term_text (k, a)).
      { unfold term_text. cbn [fst snd]. destruct k as [|[|k]]; cbn [Nat.ltb Nat.leb Nat.eqb power_text].
        - destruct first; [now rewrite app_nil_r|]. specialize (Hk eq_refl). lia.
        - destruct first; reflexivity.
        - destruct first; reflexivity. }
      rewrite Et. destruct (filter _ (combine (seq (S k) (length p)) p)) as [|t ts] eqn:F.
      * cbn [map join]. now rewrite app_nil_r.
      * cbn [map]. cbn [join]. rewrite <- !app_assoc. reflexivity.
    + rewrite IH by (intros Hf; specialize (Hk Hf); lia). reflexivity.
Qed.
Lemma pfmt_terms p : pfmt show eps p = join (lits " + ") (map term_text (terms eps p)).
Proof.
  unfold pfmt. rewrite pfmt_gen by discriminate. cbn [snd app]. unfold terms. now destruct (filter _ _).
Qed.

Context (Hshow : plain show).
Lemma term_ok ia : ~ In " "%char (term_text ia) /\ term_text ia <> [].
Proof.
  destruct Hshow as (_ & H1 & H2). destruct ia as [i a]. unfold term_text. cbn [fst snd]. split.
  - intros H. apply in_app_or in H as [H|H]; [exact (proj1 (H2 a) H)|].
    destruct i as [|[|i]]; cbn [power_text] in H; [destruct H|destruct H as [H|[]]; discriminate H|].
    apply in_app_or in H as [H|H]; [cbn in H; destruct H as [H|[H|[]]]; discriminate H|]. apply usize_digits in H. cbn in H. repeat (destruct H as [H|H]; [discriminate H|]). destruct H.
  - specialize (H1 a). destruct (show a); [congruence|discriminate].
Qed.
Lemma term_inj ia jb : term_text ia = term_text jb -> ia = jb.
Proof.
  destruct Hshow as (Hi & H1 & H2). destruct ia as [i a], jb as [j b]. unfold term_text. cbn [fst snd]. intros E.
  assert (Hx : forall c, ~ In "x"%char (show c)) by (intros c; apply H2).
  destruct i as [|i], j as [|j].
  - cbn [power_text] in E. rewrite !app_nil_r in E. now rewrite (Hi a b E).
  - exfalso. change (power_text 0) with (@nil ascii) in E. rewrite app_nil_r in E. symmetry in E. destruct j as [|j]; cbn [power_text] in E.
    + change (lits "x") with ("x"%char :: []) in E. now apply split_not in E.
    + change (lits "x^" ++ ?r) with ("x"%char :: "^"%char :: r) in E. now apply split_not in E.
  - exfalso. change (power_text 0) with (@nil ascii) in E. rewrite app_nil_r in E. destruct i as [|i]; cbn [power_text] in E.
    + change (lits "x") with ("x"%char :: []) in E. now apply split_not in E.
    + change (lits "x^" ++ ?r) with ("x"%char :: "^"%char :: r) in E. now apply split_not in E.
  - assert (E2 : exists r r', power_text (S i) = "x"%char :: r /\ power_text (S j) = "x"%char :: r').
    { destruct i, j; cbn [power_text]; eexists; eexists; split; reflexivity. }
    destruct E2 as (r & r' & Er & Er'). rewrite Er, Er' in E. apply split_at in E; auto. destruct E as [E ->]. rewrite (Hi a b E). f_equal.
    rewrite <- Er' in Er. destruct i, j; cbn [power_text] in Er; [reflexivity|..].
    + discriminate Er.
    + discriminate Er.
    + apply app_inv_head in Er. now apply show_usize_inj in Er.
Qed.
Lemma pfmt_inj p q : pfmt show eps p = pfmt show eps q <-> terms eps p = terms eps q.
Proof.
  rewrite !pfmt_terms. split; [|now intros ->]. intros E. apply join_inj in E.
  - revert E. generalize (terms eps q). induction (terms eps p) as [|t l IH]; intros [|t' l'] E; try discriminate; [reflexivity|].
    cbn in E. injection E as E1 E2. apply term_inj in E1. subst. f_equal. auto.
  - intros x Hx. apply in_map_iff in Hx as (ia & <- & _). apply term_ok.
  - intros x Hx. apply in_map_iff in Hx as (ia & <- & _). apply term_ok.
Qed.
Lemma pfmt_empty p : pfmt show eps p = [] <-> forall a, In a p -> sabs_diff_ne a zero eps = false.
Proof.
  rewrite pfmt_terms. assert (E : join (lits " + ") (map term_text (terms eps p)) = [] <-> terms eps p = []).
  { split; [|now intros ->]. destruct (terms eps p) as [|t ts]; [reflexivity|]. intros E. destruct (term_ok t) as [_ Hn]. exfalso.
    destruct ts; cbn [map join] in E; [congruence|]. destruct (term_text t); [congruence|discriminate E]. }
  rewrite E. unfold terms. clear E. generalize 0%nat as k. induction p as [|a p IH]; intros k; cbn [length seq combine filter snd].
  - split; [intros _ a []|reflexivity].
  - destruct (sabs_diff_ne a zero eps) eqn:Ea.
    + split; [discriminate|]. intros H. specialize (H a (or_introl eq_refl)). congruence.
    + rewrite IH. split; [intros H b [<-|Hb]; auto|intros H b Hb; apply H; now right].
Qed.
End Poly.

Section Mat.
Context {T : Type} (show : T -> text).
Definition nl : ascii := ascii_of_nat 10.

Lemma mfmt_ok A m n f : is_mat A m n f ->
  mfmt show A = Ret ([nl] ++ flat_map (fun i => row_text show (map (f i) (seq 0 n))) (seq 0 m) ++ [nl]).
Proof.
  intros HA. pose proof (is_mat_dim _ _ _ _ HA) as [Hm Hn]. unfold mfmt. rewrite Hm, Hn. fold nl.
  edestruct (for_loop_ind (fun i out => out = [nl] ++ flat_map (fun i => row_text show (map (f i) (seq 0 n))) (seq 0 i))) as (out & E & Hout).
  4:{ rewrite E. cbn [bind]. rewrite Hout, <- app_assoc. reflexivity. }
  - lia.
  - reflexivity.
  - intros i out Hi ->. rewrite seq_S. cbn [Nat.add]. rewrite flat_map_app. cbn [flat_map]. rewrite app_nil_r.
    edestruct (for_loop_ind (fun j o => o = ([nl] ++ flat_map (fun i => row_text show (map (f i) (seq 0 n))) (seq 0 i)) ++ flat_map (fun a => show a ++ lits " ") (map (f i) (seq 0 j)))) as (o & E & Ho).
    4:{ rewrite E. cbn [bind]. eexists. split; [reflexivity|]. rewrite Ho. unfold row_text. rewrite <- !app_assoc. reflexivity. }
    + lia.
    + cbn. now rewrite app_nil_r.
    + intros j o Hj ->. destruct HA as (_ & _ & HA). rewrite HA by lia. cbn [bind]. eexists. split; [reflexivity|].
      rewrite seq_S. cbn [Nat.add]. rewrite map_app, flat_map_app. cbn [map flat_map]. rewrite app_nil_r, <- app_assoc. reflexivity.
Qed.

Context (Hshow : plain show).
Lemma row_flat_inj : forall l l', flat_map (fun a => show a ++ lits " ") l = flat_map (fun a => show a ++ lits " ") l' -> l = l'.
Proof.
  destruct Hshow as (Hi & H1 & H2). change (lits " ") with [" "%char].
  induction l as [|a l IH]; intros [|b l'] E; cbn [flat_map] in E; [reflexivity|..].
  - exfalso. specialize (H1 b). destruct (show b); [congruence|discriminate E].
  - exfalso. specialize (H1 a). destruct (show a); [congruence|discriminate E].
  - rewrite <- !app_assoc in E. cbn [app] in E. apply split_at in E; [|apply H2|apply H2]. destruct E as [E1 E2]. rewrite (Hi _ _ E1), (IH _ E2). reflexivity.
Qed.
Lemma row_no_nl l : ~ In nl (flat_map (fun a => show a ++ lits " ") l).
Proof.
  destruct Hshow as (_ & _ & H2). intros H. apply in_flat_map in H as (a & _ & H). apply in_app_or in H as [H|H]; [now apply (H2 a)|].
  cbn in H. destruct H as [H|[]]. discriminate H.
Qed.
Lemma row_first l : row_text show l <> [nl] -> exists c r, row_text show l = c :: r /\ c <> nl.
Proof.
  unfold row_text. pose proof (row_no_nl l) as H. destruct (flat_map _ l) as [|c r]; cbn; [congruence|]. intros _. exists c, (r ++ [nl]). split; [reflexivity|].
  intros ->. apply H. now left.
Qed.
Lemma rows_inj : forall L L', flat_map (row_text show) L ++ [nl] = flat_map (row_text show) L' ++ [nl] -> L = L'.
Proof.
  intros L L' E. apply app_inj_tail in E as [E _]. revert L' E.
  induction L as [|r L IH]; intros [|r' L'] E; cbn [flat_map] in E; [reflexivity|..].
  - exfalso. unfold row_text in E. destruct (flat_map _ r'); discriminate E.
  - exfalso. unfold row_text in E. destruct (flat_map _ r); discriminate E.
  - unfold row_text at 1 3 in E. rewrite <- !app_assoc in E. cbn [app] in E. apply split_at in E; [|apply row_no_nl|apply row_no_nl].
    destruct E as [E1 E2]. rewrite (row_flat_inj _ _ E1), (IH _ E2). reflexivity.
Qed.
Lemma mfmt_inj A B m n f m' n' g : is_mat A m n f -> is_mat B m' n' g -> (0 < m)%nat -> mfmt show A = mfmt show B -> A = B.
Proof.
  intros HA HB Hm E. rewrite (mfmt_ok A m n f HA), (mfmt_ok B m' n' g HB) in E. injection E as E.
  assert (R : forall (h : nat -> nat -> T) k w, flat_map (fun i => row_text show (map (h i) (seq 0 w))) (seq 0 k) = flat_map (row_text show) (map (fun i => map (h i) (seq 0 w)) (seq 0 k))).
  { intros h k w. generalize (seq 0 k). induction l; cbn; [reflexivity|now rewrite IHl]. }
  rewrite !R in E. apply rows_inj in E.
  assert (Em : m = m') by (apply (f_equal (@length _)) in E; now rewrite !map_length, !seq_length in E). subst m'.
  assert (Er : forall i, (i < m)%nat -> map (f i) (seq 0 n) = map (g i) (seq 0 n')).
  { intros i Hi. apply (f_equal (fun l => nth i l [])) in E. rewrite !(nth_indep _ [] (map (f 0%nat) (seq 0 n))) in E by (rewrite map_length, seq_length; lia).
    rewrite (nth_indep (map (fun i => map (g i) (seq 0 n')) (seq 0 m)) _ (map (g 0%nat) (seq 0 n'))) in E by (rewrite map_length, seq_length; lia).
    rewrite (map_nth (fun i => map (f i) (seq 0 n)) (seq 0 m) 0%nat i), (map_nth (fun i => map (g i) (seq 0 n')) (seq 0 m) 0%nat i) in E.
    rewrite seq_nth in E by exact Hi. exact E. }
  assert (En : n = n') by (specialize (Er 0%nat Hm); apply (f_equal (@length _)) in Er; now rewrite !map_length, !seq_length in Er). subst n'.
  eapply is_mat_unique; [exact HA|]. eapply is_mat_ext; [|exact HB]. intros i j Hi Hj. specialize (Er i Hi).
  apply (f_equal (fun l => nth j l (f i 0%nat))) in Er. rewrite map_nth in Er.
  rewrite (nth_indep (map (g i) (seq 0 n)) _ (g i 0%nat)), map_nth in Er by (rewrite map_length, seq_length; lia). rewrite seq_nth in Er by exact Hj. symmetry. exact Er.
Qed.
Lemma cfmt_inj (z w : cplx T) : cfmt show z = cfmt show w -> z = w.
Proof.
  destruct Hshow as (Hi & H1 & H2). destruct z as [a b], w as [c d]. unfold cfmt. cbn [re im]. intros E.
  change (lits " + " ++ ?r) with (" "%char :: lits "+ " ++ r) in E. apply split_at in E; [|apply H2|apply H2]. destruct E as [E1 E2].
  apply app_inv_head in E2. change (lits "i") with ["i"%char] in E2. apply app_inj_tail in E2 as [E2 _]. now rewrite (Hi _ _ E1), (Hi _ _ E2).
Qed.
End Mat.

(** ** Random *)
Lemma mnew_random_ok {T S} (gen : S -> T * S) s m n :
  exists A, mnew_random gen s m n = Ret (A, snd (gen s)) /\ is_mat A m n (fun _ _ => fst (gen s)).
Proof.
  unfold mnew_random. destruct (gen s) as [x s'] eqn:E. unfold mnew. rewrite repeat_length, Nat.eqb_refl. cbn [bind]. eexists. split; [reflexivity|].
  split; [reflexivity|]. split; [apply repeat_length|]. intros i j Hi Hj. unfold mget. cbn [rows cols data fst].
  replace (i <? m)%nat with true by (symmetry; apply Nat.ltb_lt; exact Hi). replace (j <? n)%nat with true by (symmetry; apply Nat.ltb_lt; exact Hj). cbn [andb].
  unfold vget. rewrite nth_error_repeat by nia. reflexivity.
Qed.
Lemma random_sequence_ok {T S} (gen : S -> T * S) : forall k s, length (fst (random_sequence gen s k)) = k /\
  snd (random_sequence gen s k) = gen_state gen k s /\
  forall i, (i < k)%nat -> nth_error (fst (random_sequence gen s k)) i = Some (fst (gen (gen_state gen i s))).
Proof.
  induction k as [|k IH]; intros s; cbn [random_sequence gen_state].
  - repeat split; auto. intros i Hi. lia.
  - destruct (gen s) as [x s1] eqn:E. specialize (IH s1). destruct (random_sequence gen s1 k) as [l s2]. cbn [fst snd] in *. destruct IH as (L & S2 & N).
    split; [cbn; lia|]. split; [exact S2|]. intros [|i] Hi; cbn [nth_error gen_state]; rewrite E; [reflexivity|]. apply N. lia.
Qed.

(** ** Iteration *)
Lemma next_some {T} : forall (l : list T) k, next_calls elem_next (length l + k) l = Ret (map Some l ++ repeat None k).
Proof.
  induction l as [|x l IH]; intros k.
  - cbn [length Nat.add map app]. induction k as [|k IH]; cbn [next_calls elem_next bind repeat snd fst]; [reflexivity|]. now rewrite IH.
  - cbn [length Nat.add next_calls elem_next bind snd fst]. rewrite IH. reflexivity.
Qed.
Lemma data_list {T} (A : matrix T) m n f : is_mat A m n f -> data A = map (fun k => f (k mod m) (k / m)) (seq 0 (m * n)).
Proof.
  intros HA. pose proof (is_mat_len _ _ _ _ HA) as HL. apply list_ext_vget; [now rewrite map_length, seq_length|].
  intros k Hk. rewrite HL in Hk. destruct (idx_divmod m n k Hk) as (H1 & H2 & H3).
  pose proof (is_mat_vget A m n f (k mod m) (k / m) HA H1 H2) as E. rewrite <- H3 in E. rewrite E. unfold vget.
  rewrite nth_error_map. rewrite (nth_error_nth' (seq 0 (m * n)) 0%nat) by (rewrite seq_length; exact Hk). rewrite seq_nth by exact Hk. reflexivity.
Qed.
Lemma into_iter_ok {T} (A : matrix T) m n f k : is_mat A m n f ->
  next_calls elem_next (m * n + k) (minto_iter A) = Ret (map (fun x => Some (f (x mod m) (x / m))) (seq 0 (m * n)) ++ repeat None k).
Proof.
  intros HA. unfold minto_iter. rewrite <- (is_mat_len _ _ _ _ HA), next_some. f_equal. f_equal. rewrite (data_list A m n f HA) at 1. rewrite map_map.
  rewrite (is_mat_len _ _ _ _ HA). reflexivity.
Qed.
Lemma iter_mut_list {T S} (body : S -> T -> T * S) : forall l s, exists st : nat -> S, st 0%nat = s /\ snd (iter_mut_loop body s l) = st (length l) /\ length (fst (iter_mut_loop body s l)) = length l /\ forall k x, vget l k = Ret x -> vget (fst (iter_mut_loop body s l)) k = Ret (fst (body (st k) x)) /\ st (Datatypes.S k) = snd (body (st k) x).
Proof.
  induction l as [|x l IH]; intros s; cbn [iter_mut_loop].
  - exists (fun _ => s). repeat split; auto. all: destruct k; discriminate.
  - destruct (body s x) as [y s1] eqn:E. destruct (IH s1) as (st & H0 & Hs & HL & Hk). destruct (iter_mut_loop body s1 l) as [r' s2]. cbn [fst snd length] in *.
    exists (fun k => match k with 0%nat => s | Datatypes.S k' => st k' end). split; [reflexivity|]. split; [exact Hs|]. split; [cbn; congruence|].
    intros [|k] z Hz; cbn in Hz.
    + injection Hz as <-. rewrite E. split; [reflexivity|exact H0].
    + apply (Hk k z Hz).
Qed.
Lemma miter_mut_ok {T S} (body : S -> T -> T * S) s (A : matrix T) m n f : is_mat A m n f ->
  exists st : nat -> S, st 0%nat = s /\ snd (miter_mut body s A) = st (m * n)%nat /\ (forall i j, (i < m)%nat -> (j < n)%nat -> st (Datatypes.S (j * m + i)) = snd (body (st (j * m + i)%nat) (f i j))) /\ is_mat (fst (miter_mut body s A)) m n (fun i j => fst (body (st (j * m + i)%nat) (f i j))).
Proof.
  intros HA. destruct (iter_mut_list body (data A) s) as (st & H0 & Hs & HL & Hk). exists st. split; [exact H0|].
  pose proof (is_mat_dim _ _ _ _ HA) as [Hm Hn]. unfold miter_mut. destruct (iter_mut_loop body s (data A)) as [d s']. cbn [fst snd] in *.
  split; [rewrite Hs, (is_mat_len _ _ _ _ HA); reflexivity|]. split.
  - intros i j Hi Hj. apply Hk. exact (is_mat_vget A m n f i j HA Hi Hj).
  - apply is_mat_intro; cbn [rows cols data]; auto; [rewrite HL; exact (is_mat_len _ _ _ _ HA)|].
    intros i j Hi Hj. apply Hk. exact (is_mat_vget A m n f i j HA Hi Hj).
Qed.
Lemma from_vector_ok {T} (v : vector T) : wf v -> mfrom_vector v = Ret v.
Proof.
  intros H. unfold mfrom_vector, dim, mconvert_to_vec, mnew. rewrite H, Nat.eqb_refl. destruct v. reflexivity.
Qed.

Section Small.
Context {T : Type} {O : Ops T}.
Lemma cmp_loop_ok v w eps m f g : is_col v m f -> is_col w m g -> forall k i, (i + k = m)%nat ->
  exists b, cmp_loop v w eps k i = Ret b /\ (b = true <-> forall j, (i <= j < m)%nat -> ltb eps (fabs (sub (f j) (g j))) = false).
Proof.
  intros Hv Hw. induction k as [|k IH]; intros i Hi; cbn [cmp_loop].
  - exists true. split; [reflexivity|]. split; [intros _ j Hj; lia|reflexivity].
  - rewrite (col_get v m f i Hv), (col_get w m g i Hw) by lia. cbn [bind]. destruct (ltb eps (fabs (sub (f i) (g i)))) eqn:E.
    + exists false. split; [reflexivity|]. split; [discriminate|]. intros H. specialize (H i ltac:(lia)). congruence.
    + destruct (IH (S i) ltac:(lia)) as (b & Eb & Hb). exists b. split; [exact Eb|]. rewrite Hb. split; intros H j Hj.
      * destruct (Nat.eq_dec j i) as [->|]; [exact E|apply H; lia].
      * apply H. lia.
Qed.
Lemma compare_ok v w eps m f g : is_col v m f -> is_col w m g ->
  exists b, vcompare_neighbourhood v w eps = Ret b /\ (b = true <-> forall j, (j < m)%nat -> ltb eps (fabs (sub (f j) (g j))) = false).
Proof.
  intros Hv Hw. unfold vcompare_neighbourhood, dim. destruct (is_mat_dim _ _ _ _ Hv) as [-> ->]. destruct (is_mat_dim _ _ _ _ Hw) as [-> ->].
  rewrite !Nat.eqb_refl. cbn [negb orb]. destruct (cmp_loop_ok v w eps m f g Hv Hw m 0 eq_refl) as (b & E & H). exists b. split; [exact E|]. rewrite H.
  split; intros K j Hj; apply K; lia.
Qed.
Lemma compare_dims v w eps : dim v <> dim w -> vcompare_neighbourhood v w eps = Ret false.
Proof.
  intros H. unfold vcompare_neighbourhood. destruct (dim v) as [m n], (dim w) as [m' n'].
  destruct (Nat.eqb_spec m m') as [->|]; [|reflexivity]. destruct (Nat.eqb_spec n n') as [->|]; [|reflexivity]. congruence.
Qed.
Lemma compare_row v w eps n f g : is_mat v 1 n f -> is_mat w 1 n g -> (0 < n)%nat ->
  vcompare_neighbourhood v w eps = Ret (negb (ltb eps (fabs (sub (f 0%nat 0%nat) (g 0%nat 0%nat))))).
Proof.
  intros Hv Hw Hn. unfold vcompare_neighbourhood, dim. destruct (is_mat_dim _ _ _ _ Hv) as [R1 C1]. destruct (is_mat_dim _ _ _ _ Hw) as [R2 C2]. rewrite R1, C1, R2, C2.
  rewrite !Nat.eqb_refl. cbn [negb orb cmp_loop].
  assert (G : forall (u : vector T) h, is_mat u 1 n h -> vvget u 0 = Ret (h 0%nat 0%nat)).
  { intros u h Hu. unfold vvget. destruct (is_mat_dim _ _ _ _ Hu) as [Ru Cu]. rewrite Ru, Cu, Nat.eqb_refl. cbn [orb rassert bind].
    destruct (Nat.ltb_spec 0 n); [|lia]. cbn [rassert bind]. exact (is_mat_get u 1 n h 0 0 Hu ltac:(lia) Hn). }
  rewrite (G v f Hv), (G w g Hw). cbn [bind]. now destruct (ltb eps _).
Qed.
End Small.

Section Macros.
Context {T : Type} {O : Ops T} {I : InfOps T}.
Lemma last_cons {A} (x d : A) l : last (x :: l) d = last l x.
Proof. revert x d. induction l as [|y l IH]; intros x d; [reflexivity|]. change (last (x :: y :: l) d) with (last (y :: l) d). now rewrite !IH. Qed.
Lemma ad_fold : forall opts e0, fold_left (@ad_epsilon T) opts (mkAbsDiff e0) = mkAbsDiff (last opts e0).
Proof. induction opts as [|e opts IH]; intros e0; [reflexivity|]. cbn [fold_left]. unfold ad_epsilon at 2. now rewrite IH, last_cons. Qed.
Lemma rel_fold : forall opts e0 r0, fold_left (@rel_set T) opts (mkRelative e0 r0) = mkRelative (last_epsilon e0 opts) (last_max_relative r0 opts).
Proof.
  induction opts as [|[e|r] opts IH]; intros e0 r0; [reflexivity|..]; cbn [fold_left rel_set rel_eps rel_max]; rewrite IH;
    unfold last_epsilon, last_max_relative; cbn [flat_map app]; now rewrite last_cons.
Qed.
End Macros.

(** ** A plain way to print rationals *)
From Coq Require Import QArith Qcanon ZArith.
Definition show_Qc (q : Qc) : text :=
  (if Qnum (this q) <? 0 then lits "-" else [])%Z ++ show_usize (Z.to_nat (Z.abs (Qnum (this q)))) ++ lits "/" ++ show_usize (Pos.to_nat (Qden (this q))).
Lemma show_Qc_chars q c : In c (show_Qc q) -> digit c \/ c = "-"%char \/ c = "/"%char.
Proof.
  unfold show_Qc. intros H. repeat (apply in_app_or in H as [H|H]); try (left; now apply usize_digits in H).
  - destruct (_ <? _)%Z; [|contradiction]. destruct H as [<-|[]]. auto.
  - destruct H as [<-|[]]. auto.
Qed.
Lemma show_Qc_plain : plain show_Qc.
Proof.
  split; [|split].
  - intros a b E. unfold show_Qc in E. apply Qc_is_canon.
    assert (N : forall i, ~ In "-"%char (show_usize i)) by (intros i H; apply usize_digits in H; revert H; unfold digit; cbn; intuition congruence).
    assert (S : forall i, ~ In "/"%char (show_usize i)) by (intros i H; apply usize_digits in H; revert H; unfold digit; cbn; intuition congruence).
    assert (NE : forall i, show_usize i <> []) by (intros i H; unfold show_usize, NilZero.string_of_uint in H; destruct (Nat.to_uint i); discriminate).
    assert (K : (Qnum (this a) <? 0)%Z = (Qnum (this b) <? 0)%Z /\
      show_usize (Z.to_nat (Z.abs (Qnum (this a)))) ++ lits "/" ++ show_usize (Pos.to_nat (Qden (this a))) = show_usize (Z.to_nat (Z.abs (Qnum (this b)))) ++ lits "/" ++ show_usize (Pos.to_nat (Qden (this b)))).
    { destruct (Qnum (this a) <? 0)%Z, (Qnum (this b) <? 0)%Z; cbn [lits list_ascii_of_string app] in E; [injection E as E; auto|..|auto]; exfalso.
      - destruct (show_usize (Z.to_nat (Z.abs (Qnum (this b))))) as [|d r] eqn:F; [now apply NE in F|]. cbn in E. injection E as E _. apply (N (Z.to_nat (Z.abs (Qnum (this b))))). rewrite F. left. now symmetry.
      - destruct (show_usize (Z.to_nat (Z.abs (Qnum (this a))))) as [|d r] eqn:F; [now apply NE in F|]. cbn in E. injection E as E _. apply (N (Z.to_nat (Z.abs (Qnum (this a))))). rewrite F. left. exact E. }
    destruct K as [K1 K2]. change (lits "/" ++ ?r) with ("/"%char :: r) in K2. apply split_at in K2; [|apply S|apply S]. destruct K2 as [K2 K3].
    apply show_usize_inj in K2, K3. apply Pos2Nat.inj in K3. unfold Qeq. rewrite K3. f_equal.
    apply Z2Nat.inj in K2; try apply Z.abs_nonneg. destruct (Z.ltb_spec (Qnum (this a)) 0), (Z.ltb_spec (Qnum (this b)) 0); try discriminate; lia.
  - intros a H. unfold show_Qc in H. apply app_eq_nil in H as [_ H]. apply app_eq_nil in H as [_ H]. discriminate.
  - intros a. repeat split; intros H; apply show_Qc_chars in H; revert H; unfold digit; cbn; intuition congruence.
Qed.
