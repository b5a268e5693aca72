(** Property theorems C01-C04, C06-C12: dense matrices.  Statements only; the proofs are lemmas of
    the *_proofs files.

    Reading guide.  [is_mat A m n f] (Matrix_spec.v) says: [A] has dimensions m x n and
    [A.get(i,j)] returns [f i j] for all i < m, j < n.  [wf A] says the storage has
    rows*columns cells; every constructor establishes it.  [Ret x] is a normal return, [Panic] a
    panic.  [T] is any element type and [O : Ops T] any record of operations (no laws), so the
    theorems without a [RingLaws] hypothesis hold for f32/f64 as well. *)
From Coq Require Import Arith List Bool Lia QArith Qcanon.
From Verif Require Import Outcome Scalar Matrix_model Transpose_model Vector_model Approx_model Matrix_spec
  Matrix_proofs Transpose_proofs Vector_proofs Sums Basics_proofs MatProps_proofs.
Import ListNotations.
Local Open Scope nat_scope.

(** Example data: a 2x3 matrix of rationals, a 3x2 one, vectors. *)
Definition exA : matrix Qc := mkMatrix 2 3 [qz 1; qz 4; qz 2; qz 5; qz 3; qz 6].
Definition exB : matrix Qc := mkMatrix 3 2 [qz 1; qz 0; qz 2; qz (-1); qz 1; qz 3].
Definition exS : matrix Qc := mkMatrix 2 2 [qz 1; qz 3; qz 2; qz 4].
Definition entA (i j : nat) : Qc := nth (j * 2 + i) (data exA) (qz 0).
Definition entB (i j : nat) : Qc := nth (j * 3 + i) (data exB) (qz 0).
Definition entS (i j : nat) : Qc := nth (j * 2 + i) (data exS) (qz 0).
Example exA_mat : is_mat exA 2 3 entA.
Proof.
  apply is_mat_intro; auto. intros i j Hi Hj. apply vget_ok. simpl length. lia.
Qed.
Example exB_mat : is_mat exB 3 2 entB.
Proof.
  apply is_mat_intro; auto. intros i j Hi Hj. apply vget_ok. simpl length. lia.
Qed.
Example exS_mat : is_mat exS 2 2 entS.
Proof.
  apply is_mat_intro; auto. intros i j Hi Hj. apply vget_ok. simpl length. lia.
Qed.
Definition exv : vector Qc := mkMatrix 3 1 [qz 2; qz 7; qz 5].
Definition entv (i : nat) : Qc := nth i (data exv) (qz 0).
Example exv_col : is_col exv 3 entv.
Proof.
  apply is_mat_intro; auto. intros i j Hi Hj. assert (j = 0) by lia. subst j.
  apply vget_ok. simpl length. lia.
Qed.
Definition exr : vector Qc := mkMatrix 1 3 [qz 2; qz 7; qz 5].
Example exr_row : is_row exr 3 entv.
Proof.
  apply is_mat_intro; auto. intros i j Hi Hj. assert (i = 0) by lia. subst i.
  replace (j * 1 + 0) with j by lia. apply vget_ok. simpl length. lia.
Qed.

(** * C01 *)

(** new succeeds exactly when the data length is m*n; entries are addressed column-major. *)
Theorem C01_new : forall (T : Type) (m n : nat) (d : list T),
  (length d = m * n ->
     exists A, mnew m n d = Ret A /\ dim A = (m, n) /\ wf A /\
       forall i j, i < m -> j < n -> exists x, nth_error d (j * m + i) = Some x /\ mget A i j = Ret x) /\
  (length d <> m * n -> mnew m n d = Panic).
Proof. intros T m n d. split; [apply new_ok | apply new_bad]. Qed.
Print Assumptions C01_new.

(** get returns exactly for in-range indices. *)
Theorem C01_get_range : forall (T : Type) (A : matrix T) (i j : nat),
  wf A -> ((exists x, mget A i j = Ret x) <-> i < rows A /\ j < cols A).
Proof. exact @get_iff. Qed.
Print Assumptions C01_get_range.

(** Writing through get_mut changes that element and nothing else. *)
Theorem C01_set : forall (T : Type) (A : matrix T) (i j : nat) (v : T),
  wf A ->
  (i < rows A -> j < cols A ->
     exists A', mset A i j v = Ret A' /\ wf A' /\ dim A' = dim A /\ mget A' i j = Ret v /\
       forall a b, (a, b) <> (i, j) -> mget A' a b = mget A a b) /\
  (rows A <= i \/ cols A <= j -> mset A i j v = Panic).
Proof. intros T A i j v Hw. split; [intros; apply set_ok; assumption | apply set_bad]. Qed.
Print Assumptions C01_set.

(** The matrix! literal given row by row puts element j of row i at (i,j). *)
Theorem C01_macro : forall (T : Type) (a : list (list T)) (d : T) (n : nat),
  a <> [] -> (forall r, In r a -> length r = n) ->
  exists A, matrix_macro a = Ret A /\ is_mat A (length a) n (fun i j => nth j (nth i a []) d).
Proof. exact @macro_ok. Qed.
Print Assumptions C01_macro.

Example C01_example :
  wf exA /\ mget exA 1 2 = Ret (qz 6) /\ mget exA 2 0 = Panic /\ mget exA 0 3 = Panic /\
  matrix_macro [[qz 1; qz 2; qz 3]; [qz 4; qz 5; qz 6]] = Ret exA.
Proof. repeat split; reflexivity. Qed.

(** * C02 *)

Theorem C02_constants : forall (T : Type) (O : Ops T) (m n : nat),
  is_mat (mzero m n) m n (fun _ _ => zero) /\
  is_mat (mones m n) m n (fun _ _ => one) /\
  (exists I, mone n = Ret I /\ is_mat I n n (fun i j => if i =? j then one else zero)).
Proof.
  intros T O m n. split; [apply mzero_spec|]. split; [apply mones_spec|]. exact (mone_spec n).
Qed.
Print Assumptions C02_constants.

Example C02_example : @mone Qc _ 2 = Ret (mkMatrix 2 2 [qz 1; qz 0; qz 0; qz 1]).
Proof. reflexivity. Qed.

(** * C03 *)

Theorem C03_get_column : forall (T : Type) (O : Ops T) (A : matrix T) m n f j,
  is_mat A m n f ->
  (j < n -> exists v, mget_column A j = Ret v /\ is_col v m (fun i => f i j)) /\
  (n <= j -> mget_column A j = Panic).
Proof.
  intros T O A m n f j H. split; intros Hj; [eapply mget_column_spec; eauto|].
  apply mget_column_panic. rewrite (is_mat_cols _ _ _ _ H). assumption.
Qed.
Print Assumptions C03_get_column.

Theorem C03_get_row : forall (T : Type) (O : Ops T) (A : matrix T) m n f i,
  is_mat A m n f ->
  (i < m -> exists v, mget_row A i = Ret v /\ is_row v n (fun j => f i j)) /\
  (m <= i -> mget_row A i = Panic).
Proof.
  intros T O A m n f i H. split; intros Hi; [eapply mget_row_spec; eauto|].
  apply mget_row_panic. rewrite (is_mat_rows _ _ _ _ H). assumption.
Qed.
Print Assumptions C03_get_row.

Theorem C03_set_column : forall (T : Type) (A : matrix T) m n f v g j,
  is_mat A m n f ->
  (is_col v m g -> j < n ->
     exists B, mset_column A v j = Ret B /\ is_mat B m n (fun a b => if b =? j then g a else f a b)) /\
  (rows v <> m \/ (0 < m /\ n <= j) -> mset_column A v j = Panic).
Proof.
  intros T A m n f v g j H. destruct (is_mat_dim _ _ _ _ H) as [R C]. split.
  - intros Hv Hj. apply mset_column_spec; assumption.
  - rewrite <- R, <- C. intros [Hl|[Hm Hj]]; [apply mset_column_panic_len | apply mset_column_panic_idx]; assumption.
Qed.
Print Assumptions C03_set_column.

Theorem C03_set_row : forall (T : Type) (A : matrix T) m n f v g i,
  is_mat A m n f ->
  (is_row v n g -> i < m ->
     exists B, mset_row A v i = Ret B /\ is_mat B m n (fun a b => if a =? i then g b else f a b)) /\
  (cols v <> n \/ (0 < n /\ m <= i) -> mset_row A v i = Panic).
Proof.
  intros T A m n f v g i H. destruct (is_mat_dim _ _ _ _ H) as [R C]. split.
  - intros Hv Hj. apply mset_row_spec; assumption.
  - rewrite <- R, <- C. intros [Hl|[Hm Hj]]; [apply mset_row_panic_len | apply mset_row_panic_idx]; assumption.
Qed.
Print Assumptions C03_set_row.

Example C03_example :
  mget_row exA 1 = Ret (mkMatrix 1 3 [qz 4; qz 5; qz 6]) /\
  mget_column exA 2 = Ret (mkMatrix 2 1 [qz 3; qz 6]) /\
  mset_row exA exr 0 = Ret (mkMatrix 2 3 [qz 2; qz 4; qz 7; qz 5; qz 5; qz 6]).
Proof. repeat split; reflexivity. Qed.

(** * C04 *)

Theorem C04_get_slice : forall (T : Type) (O : Ops T) (A : matrix T) m n f rs re cs ce,
  is_mat A m n f ->
  (rs <= re -> re < m -> cs <= ce -> ce < n ->
     exists S, mget_slice A rs re cs ce = Ret S /\
       is_mat S (re - rs + 1) (ce - cs + 1) (fun i j => f (rs + i) (cs + j))) /\
  (m <= rs \/ m <= re \/ n <= cs \/ n <= ce \/ re < rs \/ ce < cs -> mget_slice A rs re cs ce = Panic).
Proof.
  intros T O A m n f rs re cs ce H. destruct (is_mat_dim _ _ _ _ H) as [R C]. split.
  - intros. eapply mget_slice_spec; eauto.
  - rewrite <- R, <- C. apply mget_slice_panic.
Qed.
Print Assumptions C04_get_slice.

Theorem C04_set_slice : forall (T : Type) (A S : matrix T) m n f p q g r c,
  is_mat A m n f -> is_mat S p q g ->
  (r + p <= m -> c + q <= n ->
     exists B, mset_slice A S r c = Ret B /\
       is_mat B m n (fun i j => if ((r <=? i) && (i <? r + p)) && ((c <=? j) && (j <? c + q))
                                then g (i - r) (j - c) else f i j)) /\
  (m < r + p \/ n < c + q -> mset_slice A S r c = Panic).
Proof.
  intros T A S m n f p q g r c HA HS. split.
  - intros. eapply mset_slice_spec; eauto.
  - destruct (is_mat_dim _ _ _ _ HA) as [<- <-]. destruct (is_mat_dim _ _ _ _ HS) as [<- <-].
    apply mset_slice_panic.
Qed.
Print Assumptions C04_set_slice.

(** Reading back the block just written returns the slice itself. *)
Theorem C04_set_get_slice : forall (T : Type) (O : Ops T) (A S : matrix T) m n f p q g r c,
  is_mat A m n f -> is_mat S p q g -> 0 < p -> 0 < q -> r + p <= m -> c + q <= n ->
  exists B, mset_slice A S r c = Ret B /\ mget_slice B r (r + p - 1) c (c + q - 1) = Ret S.
Proof.
  intros T O A S m n f p q g r c HA HS Hp Hq Hr Hc.
  destruct (mset_slice_spec A m n f S p q g r c HA HS Hr Hc) as (B & E & HB).
  exists B. split; [assumption|].
  destruct (mget_slice_spec B m n _ r (r + p - 1) c (c + q - 1) HB) as (S' & E' & HS'); try lia.
  rewrite E'. f_equal. apply (is_mat_unique _ _ p q g); [|assumption].
  replace (r + p - 1 - r + 1) with p in HS' by lia. replace (c + q - 1 - c + 1) with q in HS' by lia.
  eapply is_mat_ext; [|exact HS']. intros i j Hi Hj.
  replace (r + i - r) with i by lia. replace (c + j - c) with j by lia. bcase; f_equal; lia.
Qed.
Print Assumptions C04_set_get_slice.

Example C04_example :
  mget_slice exA 0 1 1 2 = Ret (mkMatrix 2 2 [qz 2; qz 5; qz 3; qz 6]) /\
  mset_slice exA exS 0 1 = Ret (mkMatrix 2 3 [qz 1; qz 4; qz 1; qz 3; qz 2; qz 4]).
Proof. split; reflexivity. Qed.

(** * C06 *)

Theorem C06_add : forall (T : Type) (O : Ops T) (A B : matrix T) m n f g,
  is_mat A m n f -> is_mat B m n g ->
  (exists C, madd A B = Ret C /\ is_mat C m n (fun i j => add (f i j) (g i j))) /\
  (exists C, msub A B = Ret C /\ is_mat C m n (fun i j => sub (f i j) (g i j))).
Proof. intros T O A B m n f g HA HB. split; [apply madd_spec | apply msub_spec]; assumption. Qed.
Print Assumptions C06_add.

Theorem C06_add_panics : forall (T : Type) (O : Ops T) (A B : matrix T),
  wf A -> wf B ->
  ((exists C, madd A B = Ret C) <-> dim A = dim B) /\ ((exists C, msub A B = Ret C) <-> dim A = dim B).
Proof. intros T O A B HA HB. split; [apply add_iff | apply sub_iff]; assumption. Qed.
Print Assumptions C06_add_panics.

Theorem C06_scalar : forall (T : Type) (O : Ops T) (A : matrix T) m n f c,
  is_mat A m n f ->
  is_mat (madd_scalar A c) m n (fun i j => add (f i j) c) /\
  is_mat (msub_scalar A c) m n (fun i j => sub (f i j) c).
Proof. intros T O A m n f c H. split; [exact (mapply_spec _ A m n f H) | exact (mapply_spec _ A m n f H)]. Qed.
Print Assumptions C06_scalar.

(** Over a ring: commutative, associative, and subtraction undoes addition. *)
Theorem C06_laws : forall (T : Type) (O : Ops T), RingLaws O ->
  forall (A B C : matrix T) m n f g h, is_mat A m n f -> is_mat B m n g -> is_mat C m n h ->
  exists AB BC D, madd A B = Ret AB /\ madd B A = Ret AB /\ madd B C = Ret BC /\
    madd AB C = Ret D /\ madd A BC = Ret D /\ msub AB B = Ret A.
Proof. exact @add_comm_assoc. Qed.
Print Assumptions C06_laws.

Example C06_example :
  madd exA exA = Ret (mkMatrix 2 3 [qz 2; qz 8; qz 4; qz 10; qz 6; qz 12]) /\
  msub exA exA = Ret (mzero 2 3) /\ madd exA exB = Panic.
Proof. repeat split; reflexivity. Qed.

(** * C07 *)

(** [mulf k f g i j] is the sum over l < k of f(i,l)*g(l,j), accumulated left to right from 0. *)
Theorem C07_mul : forall (T : Type) (O : Ops T) (A B : matrix T) m k n f g,
  is_mat A m k f -> is_mat B k n g ->
  exists C, mmul A B = Ret C /\ is_mat C m n (fun i j => sumn k (fun l => mul (f i l) (g l j))).
Proof. exact @mmul_spec. Qed.
Print Assumptions C07_mul.

Theorem C07_mul_panics : forall (T : Type) (O : Ops T) (A B : matrix T),
  wf A -> wf B -> ((exists C, mmul A B = Ret C) <-> cols A = rows B).
Proof. exact @mul_iff. Qed.
Print Assumptions C07_mul_panics.

Theorem C07_assoc : forall (T : Type) (O : Ops T), RingLaws O ->
  forall (A B C : matrix T) m k l n f g h,
  is_mat A m k f -> is_mat B k l g -> is_mat C l n h ->
  exists AB BC D, mmul A B = Ret AB /\ mmul B C = Ret BC /\ mmul AB C = Ret D /\ mmul A BC = Ret D.
Proof. exact @mul_assoc. Qed.
Print Assumptions C07_assoc.

Theorem C07_distr : forall (T : Type) (O : Ops T), RingLaws O ->
  (forall (A B C : matrix T) m k n f g h,
     is_mat A m k f -> is_mat B k n g -> is_mat C k n h ->
     exists S AB AC D, madd B C = Ret S /\ mmul A B = Ret AB /\ mmul A C = Ret AC /\
       mmul A S = Ret D /\ madd AB AC = Ret D) /\
  (forall (A B C : matrix T) m k n f g h,
     is_mat A m k f -> is_mat B m k g -> is_mat C k n h ->
     exists S AC BC D, madd A B = Ret S /\ mmul A C = Ret AC /\ mmul B C = Ret BC /\
       mmul S C = Ret D /\ madd AC BC = Ret D).
Proof. intros T O L. split; [apply (mul_add_distr_l L) | apply (mul_add_distr_r L)]. Qed.
Print Assumptions C07_distr.

Theorem C07_one : forall (T : Type) (O : Ops T), RingLaws O ->
  forall (A : matrix T) m n f, is_mat A m n f ->
  exists Im In, mone m = Ret Im /\ mone n = Ret In /\ mmul Im A = Ret A /\ mmul A In = Ret A.
Proof. exact @mul_one. Qed.
Print Assumptions C07_one.

Theorem C07_transpose : forall (T : Type) (O : Ops T), RingLaws O ->
  forall (A B : matrix T) n f g, 0 < n -> is_mat A n n f -> is_mat B n n g ->
  exists AB At Bt D, mmul A B = Ret AB /\ mtranspose A = Ret At /\ mtranspose B = Ret Bt /\
    mtranspose AB = Ret D /\ mmul Bt At = Ret D.
Proof. exact @mul_transpose. Qed.
Print Assumptions C07_transpose.

Example C07_example :
  RingLaws Qc_ops /\ mmul exA exB = Ret (mkMatrix 2 2 [qz 7; qz 16; qz 10; qz 19]) /\
  mmul exA exA = Panic.
Proof. split; [exact Qc_RingLaws|]. split; reflexivity. Qed.

(** * C08 *)

Theorem C08_matrix_vector : forall (T : Type) (O : Ops T) (A : matrix T) m n f v g,
  is_mat A m n f -> is_col v n g ->
  exists w, mmul_vec A v = Ret w /\ is_col w m (fun i => sumn n (fun k => mul (f i k) (g k))).
Proof. exact @mmul_vec_spec. Qed.
Print Assumptions C08_matrix_vector.

Theorem C08_vector_matrix : forall (T : Type) (O : Ops T) (A : matrix T) m n f v g,
  is_mat A m n f -> is_row v m g ->
  exists w, vmul_mat v A = Ret w /\ is_row w n (fun j => sumn m (fun k => mul (g k) (f k j))).
Proof. exact @vmul_mat_spec. Qed.
Print Assumptions C08_vector_matrix.

Theorem C08_panics : forall (T : Type) (O : Ops T) (A : matrix T) (v : vector T),
  (cols A <> rows v -> mmul_vec A v = Panic) /\ (cols v <> rows A -> vmul_mat v A = Panic).
Proof. intros T O A v. split; [apply mmul_vec_panic | apply vmul_mat_panic]. Qed.
Print Assumptions C08_panics.

Theorem C08_scalar : forall (T : Type) (O : Ops T) (A : matrix T) m n f c,
  is_mat A m n f ->
  is_mat (mmul_scalar A c) m n (fun i j => mul (f i j) c) /\
  is_mat (mdiv_scalar A c) m n (fun i j => mul (f i j) (div one c)).
Proof. intros T O A m n f c H. split; [exact (mapply_spec _ A m n f H) | exact (mapply_spec _ A m n f H)]. Qed.
Print Assumptions C08_scalar.

(** Over a field dividing by a non-zero scalar is undone by multiplying with it. *)
Theorem C08_div_mul : forall (T : Type) (O : Ops T), FieldLaws O ->
  forall (A : matrix T) m n f c, is_mat A m n f -> c <> zero -> mmul_scalar (mdiv_scalar A c) c = A.
Proof.
  intros T O L A m n f c H Hc. eapply is_mat_unique; [|exact H].
  eapply is_mat_ext; [|exact (mapply_spec _ _ m n _ (mapply_spec _ A m n f H))].
  intros i j Hi Hj. cbv beta. pose proof (rl_ring O (fl_ring O L)) as RT.
  rewrite <- (Ring_theory.Rmul_assoc RT). rewrite (fl_div O L) by assumption.
  rewrite (Ring_theory.Rmul_comm RT). apply (Ring_theory.Rmul_1_l RT).
Qed.
Print Assumptions C08_div_mul.

(** (A*B)*v = A*(B*v) over a ring. *)
Theorem C08_assoc : forall (T : Type) (O : Ops T), RingLaws O ->
  forall (A B : matrix T) (v : vector T) m k n f g h,
  is_mat A m k f -> is_mat B k n g -> is_col v n h ->
  exists AB Bv w, mmul A B = Ret AB /\ mmul_vec B v = Ret Bv /\ mmul_vec AB v = Ret w /\ mmul_vec A Bv = Ret w.
Proof. exact @mul_vec_assoc. Qed.
Print Assumptions C08_assoc.

(** The dimension check of A*v looks at v's row count only: an m x 1 matrix accepts a row
    vector of any length k >= 1 and silently uses its first component. *)
Theorem C08_row_vector_accepted_refuted :
  exists (A : matrix Qc) (v w : vector Qc),
    dim A = (2, 1) /\ dim v = (1, 3) /\ wf A /\ wf v /\ mmul_vec A v = Ret w /\
    w = mkMatrix 2 1 [qz 2; qz 4].
Proof.
  exists (mkMatrix 2 1 [qz 1; qz 2]), exr, (mkMatrix 2 1 [qz 2; qz 4]). repeat split; reflexivity.
Qed.
Print Assumptions C08_row_vector_accepted_refuted.

Example C08_example :
  mmul_vec exA exv = Ret (mkMatrix 2 1 [qz 31; qz 73]) /\
  vmul_mat exr exB = Ret (mkMatrix 1 2 [qz 12; qz 20]).
Proof. split; reflexivity. Qed.

(** * C09 *)

Theorem C09_trace : forall (T : Type) (O : Ops T) (A : matrix T) n f,
  is_mat A n n f -> mtrace A = Ret (sumn n (fun i => f i i)).
Proof. exact @mtrace_spec. Qed.
Print Assumptions C09_trace.

Theorem C09_trace_panics : forall (T : Type) (O : Ops T) (A : matrix T),
  wf A -> ((exists t, mtrace A = Ret t) <-> rows A = cols A).
Proof. exact @trace_iff. Qed.
Print Assumptions C09_trace_panics.

Theorem C09_linear : forall (T : Type) (O : Ops T), RingLaws O ->
  forall (A B : matrix T) n f g c, is_mat A n n f -> is_mat B n n g ->
  exists S ta tb, madd A B = Ret S /\ mtrace A = Ret ta /\ mtrace B = Ret tb /\
    mtrace S = Ret (add ta tb) /\ mtrace (mmul_scalar A c) = Ret (mul ta c).
Proof. exact @trace_linear. Qed.
Print Assumptions C09_linear.

Theorem C09_cyclic : forall (T : Type) (O : Ops T), RingLaws O ->
  forall (A B : matrix T) m n f g, is_mat A m n f -> is_mat B n m g ->
  exists AB BA t, mmul A B = Ret AB /\ mmul B A = Ret BA /\ mtrace AB = Ret t /\ mtrace BA = Ret t.
Proof. exact @trace_mul_comm. Qed.
Print Assumptions C09_cyclic.

Example C09_example : mtrace exS = Ret (qz 5) /\ mtrace exA = Panic.
Proof. split; reflexivity. Qed.

(** * C10 *)

Theorem C10_eq : forall (T : Type) (O : Ops T) (A B : matrix T) m n f m' n' g,
  is_mat A m n f -> is_mat B m' n' g ->
  (meqb A B = true <-> m = m' /\ n = n' /\ forall i j, i < m -> j < n -> eqb (f i j) (g i j) = true).
Proof. exact @meqb_spec. Qed.
Print Assumptions C10_eq.

(** Reflexive, symmetric, transitive whenever the element test is. *)
Theorem C10_equivalence : forall (T : Type) (O : Ops T),
  ((forall x : T, eqb x x = true) -> forall A : matrix T, meqb A A = true) /\
  ((forall x y : T, eqb x y = eqb y x) -> forall A B : matrix T, meqb A B = meqb B A) /\
  ((forall x y z : T, eqb x y = true -> eqb y z = true -> eqb x z = true) ->
     forall A B C : matrix T, meqb A B = true -> meqb B C = true -> meqb A C = true).
Proof.
  intros T O. split; [intros H A; apply meqb_refl; assumption|].
  split; [intros H A B; apply meqb_sym; assumption | intros H A B C; apply meqb_trans; assumption].
Qed.
Print Assumptions C10_equivalence.

Theorem C10_identity : forall (T : Type) (O : Ops T) (A B : matrix T),
  EqLaws O -> (meqb A B = true <-> A = B).
Proof. exact @meqb_leibniz. Qed.
Print Assumptions C10_identity.

Example C10_example : EqLaws Qc_ops /\ meqb exA exA = true /\ meqb exA exB = false.
Proof. split; [exact Qc_EqLaws|]. split; reflexivity. Qed.

(** * C11 *)

Theorem C11_approx : forall (T : Type) (O : Ops T) (I : InfOps T) (A B : matrix T) m n f p q g eps r,
  0 < m -> 0 < n -> 0 < p -> 0 < q -> is_mat A m n f -> is_mat B p q g ->
  mabs_diff_eq A B eps = sabs_diff_eq (f 0 0) (g 0 0) eps /\
  mrelative_eq A B eps r = srelative_eq (f 0 0) (g 0 0) eps r.
Proof.
  intros T O I A B m n f p q g eps r Hm Hn Hp Hq HA HB.
  split; [eapply (mabs_diff_eq_spec A B m n f p q g) | eapply (mrelative_eq_spec A B m n f p q g)]; assumption.
Qed.
Print Assumptions C11_approx.

Theorem C11_approx_empty : forall (T : Type) (O : Ops T) (I : InfOps T) (A B : matrix T) eps r,
  data A = [] \/ data B = [] -> mabs_diff_eq A B eps = true /\ mrelative_eq A B eps r = true.
Proof. intros T O I A B eps r H. split; [apply mabs_diff_eq_empty | apply mrelative_eq_empty]; assumption. Qed.
Print Assumptions C11_approx_empty.
(** Vectors are compared in the same way. *)
Theorem C11_approx_vector : forall (T : Type) (O : Ops T) (I : InfOps T) (v w : vector T) m f n g eps r,
  0 < m -> 0 < n -> is_col v m f \/ is_row v m f -> is_col w n g \/ is_row w n g ->
  vabs_diff_eq v w eps = sabs_diff_eq (f 0) (g 0) eps /\ vrelative_eq v w eps r = srelative_eq (f 0) (g 0) eps r.
Proof.
  intros T O I v w m f n g eps r Hm Hn [Hv|Hv] [Hw|Hw];
    refine (C11_approx T O I v w _ _ _ _ _ _ eps r _ _ _ _ Hv Hw); lia.
Qed.
Print Assumptions C11_approx_vector.
(** A 2x3 and a 3x2 matrix with entries differing by up to 5 whose first elements agree, and the same with one first element changed. *)
Example C11_example : forall (I : InfOps Qc),
  mabs_diff_eq exA exB (qz 0) = sabs_diff_eq (qz 1) (qz 1) (qz 0) /\
  sabs_diff_eq (qz 1) (qz 1) (qz 0) = true /\
  mabs_diff_eq exA (mkMatrix 3 2 [qz 3; qz 0; qz 2; qz (-1); qz 1; qz 3]) (qz 1) = false.
Proof.
  intros I. split; [exact (proj1 (C11_approx Qc Qc_ops I exA exB 2 3 entA 3 2 entB (qz 0) (qz 0) ltac:(lia) ltac:(lia) ltac:(lia) ltac:(lia) exA_mat exB_mat))|].
  split; reflexivity.
Qed.

(** The expected reading fails: f64 matrices of different shape whose second entries differ by 1
    compare equal with tolerance 0. *)
Theorem C11_all_entries_close_refuted :
  exists A B : matrix f64, wf A /\ wf B /\ dim A <> dim B /\
    mabs_diff_eq A B zero = true /\ mrelative_eq A B zero zero = true /\
    (exists x y, mget A 0 1 = Ret x /\ mget B 0 1 = Ret y /\ sabs_diff_eq x y zero = false).
Proof.
  exists (mkMatrix 1 2 [one; one]), (mkMatrix 2 2 [one; one; zero; zero]).
  split; [reflexivity|]. split; [reflexivity|]. split; [discriminate|].
  split; [vm_compute; reflexivity|]. split; [vm_compute; reflexivity|].
  exists one, zero. repeat split; vm_compute; reflexivity.
Qed.
Print Assumptions C11_all_entries_close_refuted.

(** * C12 *)

(** c successive next() calls yield rows 0,1,..,m-1 and then None forever. *)
Theorem C12_rows : forall (T : Type) (O : Ops T) (A : matrix T) m n f, is_mat A m n f ->
  exists r : nat -> vector T, (forall i, i < m -> is_row (r i) n (fun j => f i j)) /\
    forall c, next_calls (row_iter_next A) c 0 =
      Ret (map (fun i => if i <? m then Some (r i) else None) (seq 0 c)).
Proof. exact @row_iter_spec. Qed.
Print Assumptions C12_rows.

Theorem C12_columns : forall (T : Type) (O : Ops T) (A : matrix T) m n f, is_mat A m n f ->
  exists r : nat -> vector T, (forall j, j < n -> is_col (r j) m (fun i => f i j)) /\
    forall c, next_calls (column_iter_next A) c 0 =
      Ret (map (fun j => if j <? n then Some (r j) else None) (seq 0 c)).
Proof. exact @col_iter_spec. Qed.
Print Assumptions C12_columns.

Theorem C12_elements : forall (T : Type) (A : matrix T) m n f, is_mat A m n f ->
  length (miter A) = m * n /\
  forall i j, i < m -> j < n -> nth_error (miter A) (j * m + i) = Some (f i j).
Proof. exact @miter_spec. Qed.
Print Assumptions C12_elements.

Example C12_example :
  next_calls (row_iter_next exA) 4 0 =
  Ret [Some (mkMatrix 1 3 [qz 1; qz 2; qz 3]); Some (mkMatrix 1 3 [qz 4; qz 5; qz 6]); None; None].
Proof. reflexivity. Qed.
