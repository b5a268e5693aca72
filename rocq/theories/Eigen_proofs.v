(** The eigenvalue iteration: termination, the trace, small matrices; the eigenvector solver. *)
From Coq Require Import Arith List Bool Lia Ring Reals Lra.
From Verif Require Import Outcome Scalar Matrix_model Transpose_model Vector_model LU_model Decomp_model Spectral_model
  Matrix_spec LU_spec Decomp_spec Matrix_proofs Transpose_proofs Vector_proofs Sums MatProps_proofs VecProps_proofs
  LU_proofs Subst_proofs LUProps_proofs Chol_proofs Norm_proofs Ortho_proofs RealOps Householder_proofs.
Import ListNotations.

(** ** Termination *)
Section Gen.
Context {T : Type} {O : Ops T} {P : POps T}.
Local Open Scope nat_scope.

Lemma francis_deflate_dec eps p a a' p' : 2 < p -> francis_deflate eps p a = Ret (a', p') -> p' < p.
Proof.
  intros Hp. unfold francis_deflate.
  destruct (mget a (p - 1 - 1) (p - 1 - 1)); [|discriminate]. cbn [bind].
  destruct (mget a (p - 1) (p - 1)); [|discriminate]. cbn [bind].
  destruct (mget a (p - 1) (p - 1 - 1)); [|discriminate]. cbn [bind].
  destruct (ltb _ _).
  - destruct (mset _ _ _ _); [|discriminate]. cbn [bind]. rewrite usub_ok by lia. cbn [bind]. rewrite usub_ok by lia. cbn [bind].
    intros E. injection E as _ <-. lia.
  - destruct (mget a (p - 1 - 2) (p - 1 - 2)); [|discriminate]. cbn [bind].
    destruct (mget a (p - 2) (p - 1 - 2)); [|discriminate]. cbn [bind].
    destruct (ltb _ _).
    + destruct (mset _ _ _ _); [|discriminate]. cbn [bind]. rewrite usub_ok by lia. cbn [bind]. rewrite usub_ok by lia. cbn [bind].
      intros E. injection E as _ <-. lia.
    + rewrite usub_ok by lia. cbn [bind]. intros E. injection E as _ <-. lia.
Qed.

Lemma francis_step_dec eps n p a u a' u' p' : 2 < p -> francis_step eps n p a u = Ret (a', u', p') -> p' < p.
Proof.
  intros Hp. unfold francis_step.
  repeat match goal with |- (let! _ := mget ?x ?i ?j in _) = _ -> _ => let w := fresh "w" in destruct (mget x i j) as [w|]; [|discriminate]; cbn [bind] end.
  destruct (for_loop _ _ _ _) as [[[[[a1' u1'] x1'] y1'] z1']|]; [|discriminate]. cbn [bind].
  destruct (francis_givens _ _ _ _ _ _) as [[a2 u2]|]; [|discriminate]. cbn [bind fst snd].
  destruct (francis_deflate eps p a2) as [[a3 p3]|] eqn:E; [|discriminate]. cbn [bind fst snd].
  intros E'. injection E' as _ _ <-. exact (francis_deflate_dec _ _ _ _ _ Hp E).
Qed.

(** Fuel [n] is enough: the loop never runs out of it. *)
Lemma francis_fuel eps n : forall fuel p a u, p <= fuel -> francis_loop eps n fuel p a u <> Ret None.
Proof.
  induction fuel as [|fuel IH]; intros p a u Hp; cbn [francis_loop].
  - destruct (Nat.ltb_spec 2 p); [lia|discriminate].
  - destruct (Nat.ltb_spec 2 p); [|discriminate].
    destruct (francis_step eps n p a u) as [[[a1 u1] p1]|] eqn:E; [|discriminate]. cbn [bind].
    apply IH. pose proof (francis_step_dec _ _ _ _ _ _ _ _ H E). lia.
Qed.
(** More fuel makes no difference. *)
Lemma francis_fuel_more eps n : forall fuel fuel' p a u, p <= fuel -> p <= fuel' ->
  francis_loop eps n fuel p a u = francis_loop eps n fuel' p a u.
Proof.
  induction fuel as [|fuel IH]; intros fuel' p a u Hp Hp'; destruct fuel' as [|fuel']; cbn [francis_loop];
    destruct (Nat.ltb_spec 2 p); try lia; try reflexivity.
  destruct (francis_step eps n p a u) as [[[a1 u1] p1]|] eqn:E; [|reflexivity]. cbn [bind].
  pose proof (francis_step_dec _ _ _ _ _ _ _ _ H E). apply IH; lia.
Qed.

Lemma mfrancis_loop eps (a : matrix T) u t :
  mfrancis eps a = Ret (u, t) <-> exists i, mone (rows a) = Ret i /\ francis_loop eps (cols a) (cols a) (cols a) a i = Ret (Some (u, t)).
Proof.
  unfold mfrancis. destruct (mone (rows a)) as [i|]; cbn [bind].
  - destruct (francis_loop eps (cols a) (cols a) (cols a) a i) as [[ut|]|] eqn:EL; cbn [bind]; split; intros H.
    + injection H as ->. exists i. auto.
    + destruct H as (j & E & F). injection E as <-. congruence.
    + discriminate.
    + destruct H as (j & E & F). injection E as <-. rewrite EL in F. discriminate.
    + discriminate.
    + destruct H as (j & E & F). injection E as <-. rewrite EL in F. discriminate.
  - split; [discriminate|]. intros (i & E & _). discriminate.
Qed.

(** The eigenvector solver always returns. *)
Lemma eigenvector_r_total A n f value g : is_mat A n n f -> is_col value n g -> exists V h, eigenvector_r A value = Ret V /\ is_mat V n n h.
Proof.
  intros HA Hv. unfold eigenvector_r. rewrite (is_mat_rows _ _ _ _ HA).
  destruct (mone_spec (T:=T) n) as (I & EI & HI). rewrite EI. cbn [bind].
  rewrite (is_mat_len _ _ _ _ Hv), Nat.mul_1_r.
  destruct (for_loop_ind (fun _ V => exists h, is_mat V n n h) (fun c vectors =>
    let! val := vget (data value) c in
    let! diff := msub A (mmul_scalar I val) in
    let! r := solve_vec diff (vzero n) in
    let! vec := runwrap r in
    mset_column vectors vec c) 0 n (mzero n n)) as (V & E & h & Hh).
  - lia.
  - eexists; apply mzero_spec.
  - intros c V Hc (h & Hh).
    pose proof (is_mat_vget value n 1 _ c 0 Hv ltac:(lia) ltac:(lia)) as Eg. cbn [Nat.mul Nat.add] in Eg. rewrite Eg. cbn [bind].
    destruct (msub_spec A _ n n f _ HA (mapply_spec (fun x => mul x (g c)) I n n _ HI)) as (D & ED & HD).
    unfold mmul_scalar. rewrite ED. cbn [bind].
    destruct (solve_vec_total D n _ (vzero n) _ HD (vzero_spec n)) as (w & x & Ew & Hw). rewrite Ew. cbn [bind runwrap].
    destruct (mset_column_spec V n n h w x c Hh Hw) as (B & EB & HB); [lia|]. exists B. split; [exact EB|]. eauto.
  - eauto.
Qed.
End Gen.

(** Each column is the zero vector when A - lambda I has nonzero pivots. *)
Section Field.
Context {T : Type} {O : Ops T} (F : FieldLaws O).
Let L := fl_ring O F.
Add Ring TrEig : (rl_ring O L).
Local Open Scope nat_scope.

Lemma eigenvector_r_zero A n f value g V h : is_mat A n n f -> is_col value n g -> eigenvector_r A value = Ret V -> is_mat V n n h ->
  forall c D, c < n -> is_mat D n n (fun i j => sub (f i j) (mul (delta i j) (g c))) -> lu_regular D n ->
  forall i, i < n -> h i c = zero.
Proof.
  intros HA Hv E HV. unfold eigenvector_r in E. rewrite (is_mat_rows _ _ _ _ HA) in E.
  destruct (mone_spec (T:=T) n) as (I & EI & HI). rewrite EI in E. cbn [bind] in E.
  rewrite (is_mat_len _ _ _ _ Hv), Nat.mul_1_r in E.
  destruct (for_loop_inv (fun k V => exists h, is_mat V n n h /\ forall c D, c < k -> is_mat D n n (fun i j => sub (f i j) (mul (delta i j) (g c))) -> lu_regular D n ->
      forall i, i < n -> h i c = zero) _ 0 n (mzero n n) V E) as (h' & Hh' & Hz).
  - lia.
  - eexists. split; [apply mzero_spec|]. intros; lia.
  - intros c W W' Hc (k & HW & Hk) Es.
    pose proof (is_mat_vget value n 1 _ c 0 Hv ltac:(lia) ltac:(lia)) as Eg. cbn [Nat.mul Nat.add] in Eg. rewrite Eg in Es. cbn [bind] in Es.
    destruct (msub_spec A _ n n f _ HA (mapply_spec (fun x => mul x (g c)) I n n _ HI)) as (D & ED & HD).
    unfold mmul_scalar in Es. rewrite ED in Es. cbn [bind] in Es.
    destruct (solve_vec_total D n _ (vzero n) _ HD (vzero_spec n)) as (w & x & Ew & Hw). rewrite Ew in Es. cbn [bind runwrap] in Es.
    destruct (mset_column_spec W n n k w x c HW Hw) as (B & EB & HB); [lia|]. rewrite EB in Es. injection Es as <-.
    exists (fun a b => if b =? c then x a else k a b). split; [exact HB|].
    intros c' D' Hc' HD' Hreg i Hi. destruct (Nat.eqb_spec c' c) as [->|Hne].
    + assert (D' = D) by (eapply is_mat_unique; [exact HD'|exact HD]). subst D'.
      destruct (solve_vec_ok F D n _ (vzero n) _ HD (vzero_spec n) Hreg) as (w2 & x2 & Ew2 & Hw2 & Hs & Hu).
      rewrite Ew in Ew2. injection Ew2 as <-.
      transitivity (x2 i). { exact (is_mat_entry_unique _ _ _ _ _ i 0 Hw Hw2 Hi ltac:(lia)). }
      symmetry. apply (Hu (fun _ => zero)); [|assumption].
      intros r Hr. apply (sumn_zero_ext L). intros; ring.
    + apply (Hk c' D'); auto. lia.
  - intros c D Hc HD Hr i Hi. transitivity (h' i c).
    + exact (is_mat_entry_unique _ _ _ _ _ i c HV Hh' Hi Hc).
    + apply (Hz c D); auto.
Qed.
End Field.

(** ** The trace *)
Local Open Scope R_scope.
Definition tracef (n : nat) (f : nat -> nat -> R) : R := sumn n (fun i => f i i).

Lemma sumn_block n k b (f : nat -> R) : (k + b <= n)%nat ->
  sumn n f = sumn k f + sumn b (fun i => f (k + i)%nat) + sumn (n - k - b) (fun i => f (k + b + i)%nat).
Proof.
  intros H. replace n with (k + b + (n - k - b))%nat at 1 by lia. rewrite !(sumn_split R_RingLaws). reflexivity.
Qed.

(** Conjugating a diagonal block with an orthogonal matrix keeps the trace, whatever happens off that block and off the diagonal. *)
Lemma trace_block n k b h f g : (k + b <= n)%nat -> orthogonal b h ->
  (forall i j, (i < b)%nat -> (j < b)%nat -> g (k + i)%nat (k + j)%nat = mulf b (mulf b h (fun i j => f (k + i)%nat (k + j)%nat)) (trf h) i j) ->
  (forall i, (i < n)%nat -> (i < k \/ k + b <= i)%nat -> g i i = f i i) -> tracef n g = tracef n f.
Proof.
  intros Hn Ho Hb Hd. unfold tracef. rewrite (sumn_block n k b (fun i => g i i) Hn), (sumn_block n k b (fun i => f i i) Hn).
  f_equal; [f_equal|].
  - apply sumn_ext. intros i Hi. apply Hd; lia.
  - rewrite (sumn_ext b _ (fun i => mulf b (mulf b h (fun i j => f (k + i)%nat (k + j)%nat)) (trf h) i i)) by (intros; apply Hb; assumption).
    rewrite (trace_mulf R_RingLaws).
    apply sumn_ext. intros i Hi.
    rewrite <- (mulf_assoc R_RingLaws).
    rewrite (mulf_ext b _ delta _ (fun i j => f (k + i)%nat (k + j)%nat)); [|intros a Ha; apply Ho; assumption|reflexivity].
    exact (mulf_id_l R_RingLaws b (fun i j => f (k + i)%nat (k + j)%nat) i i Hi).
  - apply sumn_ext. intros i Hi. apply Hd; lia.
Qed.

Ltac leb := repeat match goal with
  | |- context[(?a <=? ?b)%nat] => destruct (Nat.leb_spec a b); try lia
  | |- context[(?a <? ?b)%nat] => destruct (Nat.ltb_spec a b); try lia
  | |- context[(?a =? ?b)%nat] => destruct (Nat.eqb_spec a b); try lia end; cbn [andb].

Lemma bulge_ok n p k a u x y z f : (2 < p <= n)%nat -> (k < p - 2)%nat -> is_mat a n n f -> (exists fu, is_mat u n n fu) -> x <> 0 \/ y <> 0 \/ z <> 0 ->
  exists a' u' x' y' z' f', francis_bulge n p k (a, u, x, y, z) = Ret (a', u', x', y', z') /\
    is_mat a' n n f' /\ (exists fu', is_mat u' n n fu') /\ tracef n f' = tracef n f.
Proof.
  intros Hp Hk Ha (fu & Hu) Hnz. unfold francis_bulge.
  destruct (vnew_column_spec 3 [x; y; z] 0 eq_refl) as (b & Eb & Hb). rewrite Eb. cbn [bind].
  destruct (mhouseholder_spec b 3 _ 0 Hb) as (H & h & EH & HH & Hsym & Horth & _); [lia|lia| |].
  { destruct Hnz as [Hx|[Hx|Hx]]; [exists 0%nat|exists 1%nat|exists 2%nat]; (split; [lia|exact Hx]). }
  rewrite EH. cbn [bind]. rewrite usub_ok by lia. cbn [bind]. rewrite usub_ok by lia. cbn [bind].
  set (r1 := (Nat.max k 1 - 1)%nat).
  destruct (mget_slice_spec a n n f k (k + 2) r1 (n - 1) Ha) as (S1 & ES1 & HS1); [lia|lia|lia|lia|]. rewrite ES1. cbn [bind].
  replace (k + 2 - k + 1)%nat with 3%nat in HS1 by lia.
  destruct (mmul_spec H S1 3 3 _ _ _ HH HS1) as (T1 & ET1 & HT1). rewrite ET1. cbn [bind].
  destruct (mset_slice_spec a n n f T1 _ _ _ k r1 Ha HT1) as (a1 & Ea1 & Ha1); [lia|lia|]. rewrite Ea1. cbn [bind].
  destruct (mtranspose_good H 3 3 h) as (Ht & EHt & HHt); [lia|lia|auto|exact HH|]. rewrite EHt. cbn [bind].
  rewrite usub_ok by lia. cbn [bind]. set (q1 := (Nat.min p (k + 4) - 1)%nat).
  destruct (mget_slice_spec a1 n n _ 0 q1 k (k + 2) Ha1) as (S2 & ES2 & HS2); [lia|lia|lia|lia|]. rewrite ES2. cbn [bind].
  replace (k + 2 - k + 1)%nat with 3%nat in HS2 by lia.
  destruct (mmul_spec S2 Ht _ 3 3 _ _ HS2 HHt) as (T2 & ET2 & HT2). rewrite ET2. cbn [bind].
  destruct (mset_slice_spec a1 n n _ T2 _ _ _ 0 k Ha1 HT2) as (a2 & Ea2 & Ha2); [lia|lia|]. rewrite Ea2. cbn [bind].
  destruct (mget_slice_spec u n n _ 0 (n - 1) k (k + 2) Hu) as (S3 & ES3 & HS3); [lia|lia|lia|lia|]. rewrite ES3. cbn [bind].
  replace (k + 2 - k + 1)%nat with 3%nat in HS3 by lia.
  destruct (mmul_spec S3 Ht _ 3 3 _ _ HS3 HHt) as (T3 & ET3 & HT3). rewrite ET3. cbn [bind].
  destruct (mset_slice_spec u n n _ T3 _ _ _ 0 k Hu HT3) as (u1 & Eu1 & Hu1); [lia|lia|]. rewrite Eu1. cbn [bind].
  rewrite (is_mat_get a2 n n _ (k + 1) k Ha2) by lia. cbn [bind].
  rewrite (is_mat_get a2 n n _ (k + 2) k Ha2) by lia. cbn [bind].
  rewrite usub_ok by lia. cbn [bind].
  match type of Ha2 with is_mat _ _ _ ?g => set (f2 := g) in Ha2 end.
  assert (Htr : tracef n f2 = tracef n f).
  { apply (trace_block n k 3 h); [lia|exact Horth| |].
    - intros i j Hi Hj. unfold f2. cbv beta. leb.
      rewrite Nat.sub_0_r. replace (k + j - k)%nat with j by lia. unfold mulf at 1. unfold mulf at 2. apply sumn_ext. intros l Hl. cbn [Nat.add].
      f_equal. leb. unfold mulf. apply sumn_ext. intros l' Hl'.
      replace (k + i - k)%nat with i by lia. replace (r1 + (k + l - r1))%nat with (k + l)%nat by lia. reflexivity.
    - intros i Hi Hout. unfold f2. cbv beta.
      leb; try reflexivity. }
  destruct (k <? p - 3)%nat eqn:Ek.
  - apply Nat.ltb_lt in Ek. rewrite (is_mat_get a2 n n _ (k + 3) k Ha2) by lia. cbn [bind].
    eexists a2, u1, _, _, _, f2. split; [reflexivity|]. split; [exact Ha2|]. split; [eexists; exact Hu1|exact Htr].
  - eexists a2, u1, _, _, _, f2. split; [reflexivity|]. split; [exact Ha2|]. split; [eexists; exact Hu1|exact Htr].
Qed.

Lemma bulge_panic n p k a u f : (2 < p <= n)%nat -> (k < p - 2)%nat -> is_mat a n n f -> francis_bulge n p k (a, u, 0, 0, 0) = Panic.
Proof.
  intros Hp Hk Ha. unfold francis_bulge.
  destruct (vnew_column_spec 3 [0; 0; 0] 0 eq_refl) as (b & Eb & Hb). rewrite Eb. cbn [bind].
  rewrite (mhouseholder_zero b 3 _ 0 Hb); [|lia|lia|intros i Hi; destruct i as [|[|[|i]]]; try reflexivity; lia].
  destruct (mone_spec (T:=R) 1) as (I & EI & HI). rewrite EI. cbn [bind]. rewrite usub_ok by lia. cbn [bind]. rewrite usub_ok by lia. cbn [bind].
  destruct (mget_slice_spec a n n f k (k + 2) (Nat.max k 1 - 1) (n - 1) Ha) as (S1 & ES1 & HS1); [lia|lia|lia|lia|]. rewrite ES1. cbn [bind].
  rewrite mmul_panic; [reflexivity|]. rewrite (is_mat_cols _ _ _ _ HI), (is_mat_rows _ _ _ _ HS1). lia.
Qed.

Lemma bulge_loop n p lo a u x y z a' u' x' y' z' f : (2 < p <= n)%nat -> (lo <= p - 2)%nat ->
  is_mat a n n f -> (exists fu, is_mat u n n fu) ->
  for_loop lo (p - 2) (francis_bulge n p) (a, u, x, y, z) = Ret (a', u', x', y', z') ->
  exists f', is_mat a' n n f' /\ (exists fu', is_mat u' n n fu') /\ tracef n f' = tracef n f.
Proof.
  intros Hp Hlo Ha Hu E.
  apply (for_loop_inv (fun _ st => let '(a', u', _, _, _) := st in exists f', is_mat a' n n f' /\ (exists fu', is_mat u' n n fu') /\ tracef n f' = tracef n f)
    _ _ _ _ _ E Hlo).
  - exists f. auto.
  - intros k [[[[a1 u1] x1] y1] z1] [[[[a2 u2] x2] y2] z2] Hk (f1 & H1 & Hu1 & Ht) Es.
    destruct (Req_dec x1 0) as [->|Hx]; [destruct (Req_dec y1 0) as [->|Hy]; [destruct (Req_dec z1 0) as [->|Hz]|]|].
    { rewrite (bulge_panic n p k a1 u1 f1) in Es by (auto; lia). discriminate. }
    all: edestruct (bulge_ok n p k a1 u1) as (a3 & u3 & x3 & y3 & z3 & f3 & E3 & H3 & Hu3 & Ht3); [exact Hp|lia|exact H1|exact Hu1| |rewrite E3 in Es; injection Es as <- <- _ _ _; exists f3; split; [exact H3|split; [exact Hu3|congruence]]].
    all: auto.
Qed.

Lemma francis_givens_ok n p a u x y f : (2 < p <= n)%nat -> is_mat a n n f -> (exists fu, is_mat u n n fu) ->
  exists a' u' f', francis_givens n p a u x y = Ret (a', u') /\ is_mat a' n n f' /\ (exists fu', is_mat u' n n fu') /\ tracef n f' = tracef n f.
Proof.
  intros Hp Ha (fu & Hu). unfold francis_givens.
  pose proof (givens_pair_spec x y) as Hcs. destruct (givens_pair x y) as [c s]. destruct Hcs as [Hcs _].
  destruct (mgivens_spec (T:=R) 2 0 1 c s) as (G & EG & HG); [lia|lia|lia|]. rewrite EG. cbn [bind].
  assert (Horth : orthogonal 2 (gvf 0 1 c s)) by (apply (gvf_orthogonal R_RingLaws); auto; lia).
  destruct (mget_slice_spec a n n f (p - 1 - 1) (p - 1) (p - 3) (n - 1) Ha) as (S1 & ES1 & HS1); [lia|lia|lia|lia|]. rewrite ES1. cbn [bind].
  replace (p - 1 - (p - 1 - 1) + 1)%nat with 2%nat in HS1 by lia.
  destruct (mmul_spec G S1 2 2 _ _ _ HG HS1) as (T1 & ET1 & HT1). rewrite ET1. cbn [bind].
  destruct (mset_slice_spec a n n f T1 _ _ _ (p - 1 - 1) (p - 3) Ha HT1) as (a1 & Ea1 & Ha1); [lia|lia|]. rewrite Ea1. cbn [bind].
  destruct (mtranspose_good G 2 2 (gvf 0 1 c s)) as (Gt & EGt & HGt); [lia|lia|auto|exact HG|]. rewrite EGt. cbn [bind].
  destruct (mget_slice_spec a1 n n _ 0 (p - 1) (p - 2) (p - 1) Ha1) as (S2 & ES2 & HS2); [lia|lia|lia|lia|]. rewrite ES2. cbn [bind].
  replace (p - 1 - (p - 2) + 1)%nat with 2%nat in HS2 by lia.
  destruct (mmul_spec S2 Gt _ 2 2 _ _ HS2 HGt) as (T2 & ET2 & HT2). rewrite ET2. cbn [bind].
  destruct (mset_slice_spec a1 n n _ T2 _ _ _ 0 (p - 2) Ha1 HT2) as (a2 & Ea2 & Ha2); [lia|lia|]. rewrite Ea2. cbn [bind].
  destruct (mget_slice_spec a2 n n _ 0 (n - 1) (p - 2) (p - 1) Ha2) as (S3 & ES3 & HS3); [lia|lia|lia|lia|]. rewrite ES3. cbn [bind].
  replace (p - 1 - (p - 2) + 1)%nat with 2%nat in HS3 by lia.
  destruct (mmul_spec S3 Gt _ 2 2 _ _ HS3 HGt) as (T3 & ET3 & HT3). rewrite ET3. cbn [bind].
  destruct (mset_slice_spec u n n _ T3 _ _ _ 0 (p - 2) Hu HT3) as (u1 & Eu1 & Hu1); [lia|lia|]. rewrite Eu1. cbn [bind].
  match type of Ha2 with is_mat _ _ _ ?g => set (f2 := g) in Ha2 end.
  exists a2, u1, f2. split; [reflexivity|]. split; [exact Ha2|]. split; [eauto|].
  apply (trace_block n (p - 2) 2 (gvf 0 1 c s)); [lia|exact Horth| |].
  - intros i j Hi Hj. unfold f2. cbv beta. leb.
    rewrite Nat.sub_0_r. replace (p - 2 + j - (p - 2))%nat with j by lia. unfold mulf at 1. unfold mulf at 2. apply sumn_ext. intros l Hl. cbn [Nat.add].
    f_equal. leb. unfold mulf. apply sumn_ext. intros l' Hl'.
    replace (p - 2 + i - (p - 1 - 1))%nat with i by lia. replace (p - 3 + (p - 2 + l - (p - 3)))%nat with (p - 2 + l)%nat by lia.
    replace (p - 1 - 1 + l')%nat with (p - 2 + l')%nat by lia. reflexivity.
  - intros i Hi Hout. unfold f2. cbv beta. leb; try reflexivity.
Qed.

Lemma trace_fupd n f i j v : i <> j -> tracef n (fupd f i j v) = tracef n f.
Proof. intros H. apply sumn_ext. intros k Hk. unfold fupd. destruct (Nat.eqb_spec k i); destruct (Nat.eqb_spec k j); try reflexivity; lia. Qed.

Lemma francis_deflate_ok eps n p a f : (2 < p <= n)%nat -> is_mat a n n f ->
  exists a' p' f', francis_deflate eps p a = Ret (a', p') /\ (p' < p)%nat /\ is_mat a' n n f' /\ tracef n f' = tracef n f.
Proof.
  intros Hp Ha. unfold francis_deflate.
  rewrite !(is_mat_get a n n f _ _ Ha) by lia. cbn [bind].
  destruct (ltb _ _).
  - destruct (mset_spec a n n f (p - 1) (p - 1 - 1) 0 Ha) as (a' & Ea & Ha'); [lia|lia|]. change (@zero R R_ops) with 0. rewrite Ea. cbn [bind].
    rewrite usub_ok by lia. cbn [bind]. rewrite usub_ok by lia. cbn [bind].
    eexists _, _, _. split; [reflexivity|]. split; [lia|]. split; [exact Ha'|]. apply trace_fupd. lia.
  - rewrite ?(is_mat_get a n n f _ _ Ha) by lia. cbn [bind].
    rewrite ?(is_mat_get a n n f _ _ Ha) by lia. cbn [bind].
    destruct (ltb _ _).
    + destruct (mset_spec a n n f (p - 2) (p - 1 - 2) 0 Ha) as (a' & Ea & Ha'); [lia|lia|]. change (@zero R R_ops) with 0. rewrite Ea. cbn [bind].
      rewrite usub_ok by lia. cbn [bind]. rewrite usub_ok by lia. cbn [bind].
      eexists _, _, _. split; [reflexivity|]. split; [lia|]. split; [exact Ha'|]. apply trace_fupd. lia.
    + rewrite usub_ok by lia. cbn [bind]. eexists _, _, _. split; [reflexivity|]. split; [lia|]. split; [exact Ha|reflexivity].
Qed.

(** What the convergence test decides. *)
Definition negligible (eps : R) (f : nat -> nat -> R) (i : nat) : Prop := Rabs (f (S i) i) < eps * (Rabs (f i i) + Rabs (f (S i) (S i))).
Lemma francis_deflate_cases eps n m a f a' p' : (S (S (S m)) <= n)%nat -> is_mat a n n f -> francis_deflate eps (S (S (S m))) a = Ret (a', p') ->
  exists f', is_mat a' n n f' /\
  ((p' = S (S m) /\ (forall i j, f' i j = f i j) /\ ~ negligible eps f (S m) /\ ~ negligible eps f m) \/
   (p' = S m /\ negligible eps f (S m) /\ forall i j, f' i j = fupd f (S (S m)) (S m) 0 i j) \/
   (p' = m /\ ~ negligible eps f (S m) /\ negligible eps f m /\ forall i j, f' i j = fupd f (S m) m 0 i j)).
Proof.
  intros Hp Ha. unfold francis_deflate, negligible.
  replace (S (S (S m)) - 1)%nat with (S (S m)) by lia. replace (S (S m) - 1)%nat with (S m) by lia. replace (S (S m) - 2)%nat with m by lia.
  replace (S (S (S m)) - 2)%nat with (S m) by lia.
  rewrite !(is_mat_get a n n f _ _ Ha) by lia. cbn [bind].
  destruct (ltb _ _) eqn:E1; cbn [ltb tabs mul add R_ops] in E1.
  - apply R_ltb_true in E1. destruct (mset_spec a n n f (S (S m)) (S m) 0 Ha) as (b & Ea & Hb); [lia|lia|]. change (@zero R R_ops) with 0. rewrite Ea. cbn [bind].
    rewrite usub_ok by lia. cbn [bind]. rewrite usub_ok by lia. cbn [bind]. intros E. injection E as <- <-.
    eexists. split; [exact Hb|]. right. left. split; [lia|]. split; [exact E1|reflexivity].
  - apply R_ltb_false in E1. rewrite ?(is_mat_get a n n f _ _ Ha) by lia. cbn [bind].
    rewrite ?(is_mat_get a n n f _ _ Ha) by lia. cbn [bind].
    destruct (ltb _ _) eqn:E2; cbn [ltb tabs mul add R_ops] in E2.
    + apply R_ltb_true in E2. destruct (mset_spec a n n f (S m) m 0 Ha) as (b & Ea & Hb); [lia|lia|]. change (@zero R R_ops) with 0. rewrite Ea. cbn [bind].
      rewrite usub_ok by lia. cbn [bind]. rewrite usub_ok by lia. cbn [bind]. intros E. injection E as <- <-.
      eexists. split; [exact Hb|]. right. right. split; [lia|]. split; [lra|]. split; [exact E2|reflexivity].
    + apply R_ltb_false in E2. rewrite usub_ok by lia. cbn [bind]. intros E. injection E as <- <-. exists f. split; [exact Ha|]. left.
      split; [lia|]. split; [reflexivity|]. split; lra.
Qed.

(** One pass of the iteration ends with the test. *)
Lemma francis_step_cases eps n m a u a' u' p' f : (S (S (S m)) <= n)%nat -> is_mat a n n f -> (exists fu, is_mat u n n fu) ->
  francis_step eps n (S (S (S m))) a u = Ret (a', u', p') ->
  exists h f', is_mat a' n n f' /\ tracef n h = tracef n f /\
  ((p' = S (S m) /\ (forall i j, f' i j = h i j) /\ ~ negligible eps h (S m) /\ ~ negligible eps h m) \/
   (p' = S m /\ negligible eps h (S m) /\ forall i j, f' i j = fupd h (S (S m)) (S m) 0 i j) \/
   (p' = m /\ ~ negligible eps h (S m) /\ negligible eps h m /\ forall i j, f' i j = fupd h (S m) m 0 i j)).
Proof.
  intros Hp Ha Hu E. unfold francis_step in E. assert (Hp' : (2 < S (S (S m)) <= n)%nat) by lia.
  rewrite !(is_mat_get a n n f _ _ Ha) in E by lia. cbn [bind] in E.
  match type of E with (let! _ := for_loop _ _ _ (_, _, ?x, ?y, ?z) in _) = _ => set (x0 := x) in E; set (y0 := y) in E; set (z0 := z) in E end.
  destruct (for_loop 0 (S (S (S m)) - 2) (francis_bulge n (S (S (S m)))) (a, u, x0, y0, z0)) as [[[[[a1 u1] x1] y1] z1]|] eqn:EL; [|discriminate]. cbn [bind] in E.
  destruct (bulge_loop n (S (S (S m))) 0 a u x0 y0 z0 a1 u1 x1 y1 z1 f) as (f1 & H1 & Hu1 & Ht1); auto; [lia|].
  destruct (francis_givens_ok n (S (S (S m))) a1 u1 x1 y1 f1 ltac:(lia) H1 Hu1) as (a2 & u2 & f2 & E2 & H2 & Hu2 & Ht2). rewrite E2 in E. cbn [bind fst snd] in E.
  destruct (francis_deflate eps (S (S (S m))) a2) as [[a3 p3]|] eqn:E3; [|discriminate]. cbn [bind fst snd] in E. injection E as <- <- <-.
  destruct (francis_deflate_cases eps n m a2 f2 a3 p3 Hp H2 E3) as (f' & Hf' & HC). exists f2, f'. split; [exact Hf'|]. split; [congruence|exact HC].
Qed.

Lemma francis_step_trace eps n p a u a' u' p' f : (2 < p <= n)%nat -> is_mat a n n f -> (exists fu, is_mat u n n fu) ->
  francis_step eps n p a u = Ret (a', u', p') ->
  exists f', is_mat a' n n f' /\ (exists fu', is_mat u' n n fu') /\ tracef n f' = tracef n f.
Proof.
  intros Hp Ha Hu E. unfold francis_step in E.
  rewrite !(is_mat_get a n n f _ _ Ha) in E by lia. cbn [bind] in E.
  match type of E with (let! _ := for_loop _ _ _ (_, _, ?x, ?y, ?z) in _) = _ => set (x0 := x) in E; set (y0 := y) in E; set (z0 := z) in E end.
  destruct (for_loop 0 (p - 2) (francis_bulge n p) (a, u, x0, y0, z0)) as [[[[[a1 u1] x1] y1] z1]|] eqn:EL; [|discriminate]. cbn [bind] in E.
  destruct (bulge_loop n p 0 a u x0 y0 z0 a1 u1 x1 y1 z1 f) as (f1 & H1 & Hu1 & Ht1); auto; [lia|].
  destruct (francis_givens_ok n p a1 u1 x1 y1 f1 Hp H1 Hu1) as (a2 & u2 & f2 & E2 & H2 & Hu2 & Ht2). rewrite E2 in E. cbn [bind fst snd] in E.
  destruct (francis_deflate_ok eps n p a2 f2 Hp H2) as (a3 & p3 & f3 & E3 & _ & H3 & Ht3). rewrite E3 in E. cbn [bind fst snd] in E.
  injection E as <- <- _. exists f3. split; [exact H3|]. split; [exact Hu2|]. congruence.
Qed.

Lemma francis_loop_trace eps n : forall fuel p a u f u' a', (p <= n)%nat -> is_mat a n n f -> (exists fu, is_mat u n n fu) ->
  francis_loop eps n fuel p a u = Ret (Some (u', a')) -> exists f', is_mat a' n n f' /\ tracef n f' = tracef n f.
Proof.
  induction fuel as [|fuel IH]; intros p a u f u' a' Hp Ha Hu E; cbn [francis_loop] in E; destruct (Nat.ltb_spec 2 p).
  - discriminate.
  - injection E as _ <-. eauto.
  - destruct (francis_step eps n p a u) as [[[a1 u1] p1]|] eqn:Es; [|discriminate]. cbn [bind] in E.
    pose proof (francis_step_dec _ _ _ _ _ _ _ _ H Es).
    destruct (francis_step_trace eps n p a u a1 u1 p1 f) as (f1 & H1 & Hu1 & Ht1); auto.
    destruct (IH p1 a1 u1 f1 u' a') as (f2 & H2 & Ht2); auto; [lia|]. exists f2. split; [exact H2|congruence].
  - injection E as _ <-. eauto.
Qed.

Lemma tracef_feq n f g : feq n n f g -> tracef n f = tracef n g.
Proof. intros H. apply sumn_ext. intros i Hi. apply H; assumption. Qed.
Lemma tracef_conj n q h : orthogonal n q -> tracef n (mulf n (mulf n q h) (trf q)) = tracef n h.
Proof.
  intros Ho. unfold tracef. rewrite (trace_mulf R_RingLaws). apply sumn_ext. intros i Hi. rewrite <- (mulf_assoc R_RingLaws).
  rewrite (mulf_ext n _ delta _ h); [|intros; apply Ho; assumption|reflexivity]. apply (mulf_id_l R_RingLaws). assumption.
Qed.

(** The values read off the diagonal. *)
Lemma eig_read (t : matrix R) n f : is_mat t n n f ->
  exists v, for_loop 0 n (fun i eig => let! x := mget t i i in vvset eig i x) (vzero n) = Ret v /\ is_col v n (fun i => f i i).
Proof.
  intros Ht. apply (col_fill (vzero n) n (fun _ => zero) (fun i => f i i)).
  - apply vzero_spec.
  - intros k v Hk Hv. rewrite (is_mat_get t n n f k k Ht Hk Hk). reflexivity.
Qed.

Lemma eigenvalue_r_trace eps (A : matrix R) n a v : is_mat A n n a -> eigenvalue_r eps A = Ret v ->
  exists g, is_col v n g /\ sumn n g = sumn n (fun i => a i i).
Proof.
  intros HA E. unfold eigenvalue_r in E.
  destruct (dec_hessenberg A) as [[Q H]|] eqn:EH; [|discriminate]. cbn [bind fst snd] in E.
  destruct (dec_hessenberg_spec A n a Q H HA EH) as (fq & fh & HQ & HH & Ho & _ & Hf & _).
  destruct (mfrancis eps H) as [[u t]|] eqn:EF; [|discriminate]. cbn [bind snd] in E.
  apply mfrancis_loop in EF. destruct EF as (i & Ei & EL). rewrite (is_mat_cols _ _ _ _ HH) in EL. rewrite (is_mat_rows _ _ _ _ HH) in Ei.
  destruct (mone_spec (T:=R) n) as (I & EI & HI). rewrite EI in Ei. injection Ei as <-.
  destruct (francis_loop_trace eps n n n H I fh u t) as (ft & Ht & Htr); eauto.
  rewrite (is_mat_rows _ _ _ _ HA) in E. destruct (eig_read t n ft Ht) as (v' & Ev & Hv). rewrite Ev in E. injection E as <-.
  exists (fun i => ft i i). split; [exact Hv|]. fold (tracef n ft). rewrite Htr. rewrite <- (tracef_conj n fq fh Ho). apply tracef_feq. exact Hf.
Qed.

(** *** Matrices of size at most two: the diagonal of the Hessenberg form. *)
Lemma mfrancis_small eps (H : matrix R) n f : (n <= 2)%nat -> is_mat H n n f -> exists u, mfrancis eps H = Ret (u, H).
Proof.
  intros Hn HH. destruct (mone_spec (T:=R) n) as (I & EI & HI). exists I. apply mfrancis_loop. exists I.
  rewrite (is_mat_rows _ _ _ _ HH), (is_mat_cols _ _ _ _ HH). split; [exact EI|].
  destruct n as [|[|[|n]]]; try reflexivity; lia.
Qed.

Lemma eigenvalue_r_one eps (A : matrix R) a : is_mat A 1 1 a -> exists v, eigenvalue_r eps A = Ret v /\ is_col v 1 (fun _ => a 0%nat 0%nat).
Proof.
  intros HA. unfold eigenvalue_r.
  destruct (dec_hessenberg_returns A 1 a HA) as (Q & H & EH); [lia|intros i j; lia|intros; lia|]. rewrite EH. cbn [bind snd].
  destruct (dec_hessenberg_spec A 1 a Q H HA EH) as (fq & fh & HQ & HH & Ho & _ & Hf & _).
  destruct (mfrancis_small eps H 1 fh (le_S _ _ (le_n 1)) HH) as (u & Eu). rewrite Eu. cbn [bind snd].
  rewrite (is_mat_rows _ _ _ _ HA). destruct (eig_read H 1 fh HH) as (v & Ev & Hv). exists v. split; [exact Ev|].
  eapply col_ext; [|exact Hv]. intros i Hi. replace i with 0%nat by lia.
  pose proof (tracef_conj 1 fq fh Ho) as E. rewrite (tracef_feq 1 _ a Hf) in E. unfold tracef in E. simpl in E. lra.
Qed.

Lemma eigenvalue_r_two eps (A : matrix R) a : is_mat A 2 2 a ->
  (a 1%nat 0%nat = 0 -> eigenvalue_r eps A = Panic) /\
  (a 1%nat 0%nat <> 0 -> exists v, eigenvalue_r eps A = Ret v /\ is_col v 2 (fun i => a i i)).
Proof.
  intros HA. split; intros Hz; unfold eigenvalue_r.
  - rewrite (dec_hessenberg_panic A 2 a HA); [reflexivity|lia|]. intros i Hi. replace i with 1%nat by lia. exact Hz.
  - destruct (is_mat_dim _ _ _ _ HA) as [ER EC]. unfold dec_hessenberg. rewrite ER, EC. cbn [Nat.eqb rassert bind negb].
    destruct (mone_spec (T:=R) 2) as (I & EI & HI). rewrite EI. cbn [bind].
    rewrite for_loop_step by lia.
    destruct (hess_step_ok 2 a 1 I A delta a) as (q' & h' & fq' & fh' & E' & Hq' & Hh' & _ & Hent).
    + lia.
    + exact HI.
    + exact HA.
    + split; [apply (orthogonal_delta R_RingLaws)|]. split; [|intros; lia]. eapply feq_trans; [apply (feq_id_l R_RingLaws)|]. apply feq_sym, (feq_id_r R_RingLaws).
    + exists 1%nat. split; [lia|exact Hz].
    + rewrite E'. cbn [bind]. rewrite for_loop_nil by lia. cbn [bind fst snd].
      destruct (mtranspose_good q' 2 2 fq') as (Qt & EQ & _); [lia|lia|auto|exact Hq'|]. rewrite EQ. cbn [bind snd].
      destruct (mfrancis_small eps h' 2 fh' (le_n 2) Hh') as (u & Eu). rewrite Eu. cbn [bind snd].
      destruct (eig_read h' 2 fh' Hh') as (v & Ev & Hv). exists v. split; [exact Ev|].
      eapply col_ext; [|exact Hv]. intros i Hi. cbv beta. rewrite (Hent ltac:(intros; lia) i i Hi Hi).
      destruct (i =? 1)%nat; ring.
Qed.

(** *** 3 x 3: the iteration always returns. *)
Lemma eigenvalue_r_three eps (A : matrix R) a Q H : is_mat A 3 3 a -> dec_hessenberg A = Ret (Q, H) -> exists v, eigenvalue_r eps A = Ret v.
Proof.
  intros HA EH. unfold eigenvalue_r. rewrite EH. cbn [bind snd].
  destruct (dec_hessenberg_spec A 3 a Q H HA EH) as (fq & fh & HQ & HH & Ho & _ & _ & Hu).
  destruct (mone_spec (T:=R) 3) as (I & EI & HI).
  assert (Ef : exists u t ft, mfrancis eps H = Ret (u, t) /\ is_mat t 3 3 ft).
  { enough (exists u t, mfrancis eps H = Ret (u, t)) as (u & t & E).
    { exists u, t. pose proof E as E0. apply mfrancis_loop in E0. destruct E0 as (i & Ei & EL). rewrite (is_mat_cols _ _ _ _ HH) in EL. rewrite (is_mat_rows _ _ _ _ HH) in Ei.
      rewrite EI in Ei. injection Ei as <-.
      destruct (francis_loop_trace eps 3 3 3 H I fh u t) as (ft & Ht & Htr); eauto. }
    setoid_rewrite mfrancis_loop. rewrite (is_mat_rows _ _ _ _ HH), (is_mat_cols _ _ _ _ HH).
    cbn [francis_loop Nat.ltb Nat.leb]. unfold francis_step.
    rewrite !(is_mat_get H 3 3 fh _ _ HH) by lia. cbn [bind].
    match goal with |- exists u t i, _ /\ (let! _ := (let! _ := for_loop _ _ _ (_, _, ?x, ?y, ?z) in _) in _) = _ => set (x0 := x); set (y0 := y); set (z0 := z) end.
    destruct (bulge_ok 3 3 0 H I x0 y0 z0 fh) as (a1 & u1 & x1 & y1 & z1 & f1 & E1 & H1 & Hu1 & _); [lia|lia|exact HH|eauto| |].
    { right. right. unfold z0. simpl. pose proof (Hu 0%nat ltac:(lia)). pose proof (Hu 1%nat ltac:(lia)).
      apply Rmult_integral_contrapositive_currified; assumption. }
    destruct (francis_givens_ok 3 3 a1 u1 x1 y1 f1) as (a2 & u2 & f2 & E2 & H2 & Hu2 & _); [lia|exact H1|exact Hu1|].
    destruct (francis_deflate_ok eps 3 3 a2 f2) as (a3 & p3 & f3 & E3 & Hp3 & H3 & _); [lia|exact H2|].
    exists u2, a3, I. split; [exact EI|].
    rewrite (for_loop_step 0) by lia. rewrite E1. cbn [bind]. rewrite for_loop_nil by lia. cbn [bind]. rewrite E2. cbn [bind fst snd]. rewrite E3. cbn [bind fst snd].
    destruct p3 as [|[|[|p3]]]; try reflexivity; lia. }
  destruct Ef as (u & t & ft & E & Ht). rewrite E. cbn [bind snd]. rewrite (is_mat_rows _ _ _ _ HA).
  destruct (eig_read t 3 ft Ht) as (v & Ev & Hv). eauto.
Qed.

(** [dec_eigen] returns exactly when [eigenvalue_r] does. *)
Lemma dec_eigen_values eps (A : matrix R) n a : is_mat A n n a -> (0 < n)%nat ->
  forall v V, dec_eigen eps A = Ret (v, V) <-> eigenvalue_r eps A = Ret v /\ eigenvector_r A v = Ret V.
Proof.
  intros HA Hn v V. unfold dec_eigen. rewrite (is_mat_rows _ _ _ _ HA), (is_mat_cols _ _ _ _ HA), Nat.eqb_refl. cbn [rassert bind].
  destruct (Nat.eqb_spec n 0); [lia|]. cbn [negb rassert bind].
  destruct (eigenvalue_r eps A) as [v'|]; cbn [bind]; [|split; [discriminate|intros [E _]; discriminate]].
  destruct (eigenvector_r A v') as [V'|] eqn:E; cbn [bind].
  - split; [intros H; injection H as <- <-; auto|intros [H1 H2]; injection H1 as <-; congruence].
  - split; [discriminate|intros [H1 H2]; injection H1 as <-; congruence].
Qed.
