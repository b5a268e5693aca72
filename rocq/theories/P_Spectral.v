(** Property theorems C78-C81: bidiagonalisation, singular values, eigenvalues and eigenvectors.

    Reading guide.  [is_mat A m n a]: A is an m x n matrix with entries a i j.  [is_col v n g]: v is
    a column of length n.  [mulf n f g] is the matrix product, [trf f] the transpose, [orthogonal n q]
    is q q^T = q^T q = 1, [feq m n f g] equality of entries, [sumn n f] a sum over 0..n-1.
    [bidiagonal], [diagonal], [frob2] (sum of the squares of the entries), [is_eigenvalue],
    [is_eigenvector] are in Spectral_spec.v.  The model is run over the real numbers, i.e. without
    rounding; [eps] is the machine epsilon that the eigenvalue code compares with, any number. *)
From Coq Require Import Arith List Bool Lia Reals Lra.
From Verif Require Import Outcome Scalar Matrix_model Transpose_model Vector_model LU_model Decomp_model Spectral_model
  Matrix_spec LU_spec Decomp_spec Spectral_spec Matrix_proofs Vector_proofs Subst_proofs RealOps DecompProps_proofs
  Eigen_proofs EigVec_proofs SVD_proofs SVDIter_proofs.
Import ListNotations.
Local Open Scope nat_scope.

(** * C78 *)

(** Square matrices: U and V are orthogonal, B is upper bidiagonal and U B V^T = A. *)
Theorem C78_bidiagonal : forall (A : matrix R) n a U B V, is_mat A n n a -> householder_bidiag A = Ret (U, B, V) ->
  exists fu fb fv, is_mat U n n fu /\ is_mat B n n fb /\ is_mat V n n fv /\ orthogonal n fu /\ orthogonal n fv /\
    bidiagonal n n fb /\ feq n n (mulf n (mulf n fu fb) (trf fv)) a.
Proof.
  intros A n a U B V HA E. destruct (bidiag_square A n a U B V HA E) as (_ & fu & fb & fv & H1 & H2 & H3 & H4 & H5 & H6 & H7 & _).
  exists fu, fb, fv. auto 10.
Qed.
Print Assumptions C78_bidiagonal.

(** It does return whenever the columns of A are linearly independent. *)
Theorem C78_returns : forall (A : matrix R) m n a, is_mat A m n a -> 1 <= n <= m ->
  (forall x, (forall r, r < m -> sumn n (fun c => a r c * x c)%R = 0%R) -> forall c, c < n -> x c = 0%R) ->
  exists U B V, householder_bidiag A = Ret (U, B, V).
Proof. exact bidiag_returns. Qed.
Print Assumptions C78_returns.

Example C78_example : exists U B V, householder_bidiag (mkMatrix 3 2 [1; 1; 0; 2; 0; 5]%R) = Ret (U, B, V).
Proof.
  apply (bidiag_returns _ 3 2 _ (is_mat_list 0%R 3 2 [1; 1; 0; 2; 0; 5]%R eq_refl)); [lia|].
  intros x H. pose proof (H 1 ltac:(lia)) as H1. pose proof (H 2 ltac:(lia)) as H2. simpl in H1, H2.
  intros c Hc. destruct c as [|[|c]]; [lra|lra|lia].
Qed.

(** It panics on every matrix with more columns than rows or no column, and on every matrix with
    two or more columns whose first column is zero. *)
Theorem C78_panics_refuted : forall (A : matrix R) m n a, is_mat A m n a ->
  (m < n \/ n = 0 -> householder_bidiag A = Panic) /\
  (2 <= n <= m -> (forall r, r < m -> a r 0 = 0%R) -> householder_bidiag A = Panic).
Proof.
  intros A m n a HA. split; [|apply bidiag_zero_col; exact HA].
  intros H. destruct (householder_bidiag A) as [[[U B] V]|] eqn:E; [|reflexivity].
  destruct (bidiag_spec A m n a U B V HA E) as (Hn & _). lia.
Qed.
Print Assumptions C78_panics_refuted.

(** A single column is never reduced: for every column with a nonzero entry below the first, the
    product U B V^T is not A. *)
Theorem C78_tall_refuted : forall (A : matrix R) m a, is_mat A m 1 a -> (exists i, 1 <= i < m /\ a i 0 <> 0%R) ->
  exists U B V fu fb fv, householder_bidiag A = Ret (U, B, V) /\ is_mat U m m fu /\ is_mat B m 1 fb /\ is_mat V 1 1 fv /\
    ~ feq m 1 (mulf 1 (mulf m fu fb) (trf fv)) a.
Proof.
  intros A m a HA (i & Hi & Hne). destruct (bidiag_column A m a HA) as (U & B & V & E & HU & HV & HB); [lia|].
  exists U, B, V, delta, (fun i j => if i =? 0 then a i j else 0%R), delta. repeat (split; [assumption|]). intros H. apply Hne.
  rewrite <- (H i 0) by lia. transitivity (mulf m delta (fun i j => if i =? 0 then a i j else 0%R) i 0).
  - unfold mulf at 1, trf, delta at 2. cbn [sumn Nat.eqb]. simpl. ring.
  - rewrite (Sums.mulf_id_l R_RingLaws) by lia. destruct (Nat.eqb_spec i 0); [lia|reflexivity].
Qed.
Print Assumptions C78_tall_refuted.
Example C78_tall_example : is_mat (mkMatrix 2 1 [1; 1]%R) 2 1 (fun i j => nth (j * 2 + i) [1; 1]%R 0%R) /\
  exists i, 1 <= i < 2 /\ nth (0 * 2 + i) [1; 1]%R 0%R <> 0%R.
Proof. split; [exact (is_mat_list 0%R 2 1 [1; 1]%R eq_refl)|]. exists 1. split; [lia|simpl; lra]. Qed.

(** * C79 *)

(** Square matrices: U, V orthogonal, S diagonal and non-negative; the singular values are the
    diagonal of U^T A V, and what U S V^T misses of A is exactly what their squares miss of the
    squared Frobenius norm. *)
Theorem C79_singular_values : forall (A : matrix R) n a U S V, is_mat A n n a -> dec_sv A = Ret (U, S, V) ->
  exists fu fs fv, is_mat U n n fu /\ is_mat S n n fs /\ is_mat V n n fv /\ orthogonal n fu /\ orthogonal n fv /\
    diagonal n n fs /\ (forall l, l < n -> (0 <= fs l l)%R) /\
    (forall l, l < n -> mulf n (mulf n (trf fu) a) fv l l = fs l l) /\
    frob2 n n a = (sumn n (fun l => fs l l * fs l l) + frob2 n n (fun i j => a i j - mulf n (mulf n fu fs) (trf fv) i j))%R.
Proof. exact dec_sv_spec. Qed.
Print Assumptions C79_singular_values.

(** So A = U S V^T exactly when the squares of the singular values add up to the squared norm. *)
Theorem C79_exact_iff : forall (A : matrix R) n a U S V fu fs fv, is_mat A n n a -> dec_sv A = Ret (U, S, V) ->
  is_mat U n n fu -> is_mat S n n fs -> is_mat V n n fv ->
  (feq n n (mulf n (mulf n fu fs) (trf fv)) a <-> sumn n (fun l => fs l l * fs l l)%R = frob2 n n a).
Proof. exact dec_sv_exact. Qed.
Print Assumptions C79_exact_iff.

(** It returns exactly when the bidiagonalisation does. *)
Theorem C79_returns : forall (A : matrix R) n a, is_mat A n n a -> 1 <= n ->
  ((exists r, dec_sv A = Ret r) <-> (exists r, householder_bidiag A = Ret r)).
Proof. exact dec_sv_returns. Qed.
Print Assumptions C79_returns.

(** 2 x 2 with a nonzero first column: the squared error is at most
    d^2/N * (D^2 / (N^2 + d^2))^4000, with N the squared norm of the first column, d the product of
    the columns and D the determinant; it is never zero unless d or D is. *)
Theorem C79_two_by_two : forall (A : matrix R) a, is_mat A 2 2 a -> (a 0 0 <> 0%R \/ a 1 0 <> 0%R) ->
  let N := (a 0%nat 0%nat * a 0%nat 0%nat + a 1%nat 0%nat * a 1%nat 0%nat)%R in
  let d := (a 0%nat 0%nat * a 0%nat 1%nat + a 1%nat 0%nat * a 1%nat 1%nat)%R in
  let D := (a 0%nat 0%nat * a 1%nat 1%nat - a 0%nat 1%nat * a 1%nat 0%nat)%R in
  exists U S V fu fs fv, dec_sv A = Ret (U, S, V) /\ is_mat U 2 2 fu /\ is_mat S 2 2 fs /\ is_mat V 2 2 fv /\
    let e := frob2 2 2 (fun i j => a i j - mulf 2 (mulf 2 fu fs) (trf fv) i j)%R in
    (e <= d * d / N * (D * D / (N * N + d * d)) ^ (2 * (500 * 2 * 2)))%R /\
    (d <> 0%R -> D <> 0%R -> (0 < e)%R).
Proof. exact dec_sv_two. Qed.
Print Assumptions C79_two_by_two.

Example C79_two_example : let a := fun i j => nth (j * 2 + i) [2; 0; 1; 1]%R 0%R in
  is_mat (mkMatrix 2 2 [2; 0; 1; 1]%R) 2 2 a /\ a 0%nat 0%nat <> 0%R /\ (a 0%nat 0%nat * a 0%nat 1%nat + a 1%nat 0%nat * a 1%nat 1%nat <> 0)%R /\ (a 0%nat 0%nat * a 1%nat 1%nat - a 0%nat 1%nat * a 1%nat 0%nat <> 0)%R.
Proof. split; [exact (is_mat_list 0%R 2 2 [2; 0; 1; 1]%R eq_refl)|]. simpl. lra. Qed.

(** A diagonal matrix without zeros: the absolute values, in the order of the diagonal. *)
Theorem C79_diagonal : forall (A : matrix R) n a, is_mat A n n a -> 1 <= n -> diagonal n n a -> (forall i, i < n -> a i i <> 0%R) ->
  exists U S V, dec_sv A = Ret (U, S, V) /\ is_mat S n n (fun i j => Rabs (a i j)).
Proof. exact dec_sv_diagonal. Qed.
Print Assumptions C79_diagonal.

(** Hence the singular values are not in descending order in general. *)
Theorem C79_order_refuted : exists (A U S V : matrix R) fs, dec_sv A = Ret (U, S, V) /\ is_mat S 2 2 fs /\ (fs 0%nat 0%nat < fs 1%nat 1%nat)%R.
Proof.
  destruct (dec_sv_diagonal (mkMatrix 2 2 [1; 0; 0; 2]%R) 2 _ (is_mat_list 0%R 2 2 [1; 0; 0; 2]%R eq_refl)) as (U & S & V & E & HS).
  - lia.
  - intros i j Hi Hj Hne. destruct i as [|[|i]], j as [|[|j]]; try lia; reflexivity.
  - intros i Hi. destruct i as [|[|i]]; simpl; try lra; lia.
  - exists (mkMatrix 2 2 [1; 0; 0; 2]%R), U, S, V, (fun i j => Rabs (nth (j * 2 + i) [1; 0; 0; 2]%R 0%R)). split; [exact E|]. split; [exact HS|]. simpl. rewrite !Rabs_pos_eq by lra. lra.
Qed.
Print Assumptions C79_order_refuted.

(** Every matrix that is not square panics, and so does every square one of size at least 2 whose
    first column is zero, the zero matrix among them. *)
Theorem C79_panics_refuted : forall (A : matrix R) m n a, is_mat A m n a ->
  (m <> n -> dec_sv A = Panic) /\
  (m = n -> 2 <= n -> (forall r, r < n -> a r 0 = 0%R) -> dec_sv A = Panic).
Proof.
  intros A m n a HA. split; [apply (dec_sv_rect A m n a HA)|]. intros -> Hn Hz. unfold dec_sv.
  rewrite (bidiag_zero_col A n n a HA) by (auto; lia). reflexivity.
Qed.
Print Assumptions C79_panics_refuted.

(** * C80 *)

(** The iteration ends after at most n passes, for every element type. *)
Theorem C80_terminates : forall (T : Type) (O : Ops T) (P : POps T) (eps : T) n fuel p (a u : matrix T), p <= fuel ->
  francis_loop eps n fuel p a u <> Ret None /\
  forall fuel', p <= fuel' -> francis_loop eps n fuel p a u = francis_loop eps n fuel' p a u.
Proof. intros T O P eps n fuel p a u H. split; [apply francis_fuel; exact H|]. intros fuel' H'. apply francis_fuel_more; assumption. Qed.
Print Assumptions C80_terminates.
(** What a pass on the leading p = m + 3 rows leaves for the next one: p - 1 rows if neither of the two
    lowest entries below the diagonal is negligible beside its neighbours on it, p - 2 if the lowest is,
    p - 3 if only the other one is; a negligible entry is replaced by zero.  So the iteration takes at
    most n - 2 passes, whether or not the entries have become small. *)
Theorem C80_pass : forall eps n m (a u a' u' : matrix R) p' f fu, m + 3 <= n -> is_mat a n n f -> is_mat u n n fu ->
  francis_step eps n (m + 3) a u = Ret (a', u', p') ->
  exists h f', is_mat a' n n f' /\ sumn n (fun i => h i i) = sumn n (fun i => f i i) /\
  let small := fun i => (Rabs (h (S i) i) < eps * (Rabs (h i i) + Rabs (h (S i) (S i))))%R in
  ((p' = m + 2 /\ ~ small (m + 1) /\ ~ small m /\ forall i j, f' i j = h i j) \/
   (p' = m + 1 /\ small (m + 1) /\ forall i j, f' i j = if (i =? m + 2) && (j =? m + 1) then 0%R else h i j) \/
   (p' = m /\ ~ small (m + 1) /\ small m /\ forall i j, f' i j = if (i =? m + 1) && (j =? m) then 0%R else h i j)).
Proof.
  intros eps n m a u a' u' p' f fu Hn Ha Hu E. replace (m + 3) with (S (S (S m))) in * by lia. replace (m + 2) with (S (S m)) by lia. replace (m + 1) with (S m) by lia.
  destruct (francis_step_cases eps n m a u a' u' p' f Hn Ha (ex_intro _ fu Hu) E) as (h & f' & Hf & Ht & HC). exists h, f'. split; [exact Hf|]. split; [exact Ht|].
  cbv zeta. unfold negligible, fupd in HC. tauto.
Qed.
Print Assumptions C80_pass.

(** The n returned numbers add up to the trace of A, hence to the sum of the eigenvalues. *)
Theorem C80_trace : forall eps (A : matrix R) n a v V, is_mat A n n a -> dec_eigen eps A = Ret (v, V) ->
  exists g h, is_col v n g /\ is_mat V n n h /\ sumn n g = sumn n (fun i => a i i).
Proof.
  intros eps A n a v V HA E. destruct (Nat.eq_dec n 0) as [->|Hn].
  - rewrite (dec_eigen_shape eps A) in E by (right; exact (is_mat_rows _ _ _ _ HA)). discriminate.
  - apply (dec_eigen_values eps A n a HA) in E; [|lia]. destruct E as [E1 E2].
    destruct (eigenvalue_r_trace eps A n a v HA E1) as (g & Hg & Ht).
    destruct (eigenvector_r_total A n a v g HA Hg) as (V' & h & E3 & Hh). rewrite E2 in E3. injection E3 as <-. eauto.
Qed.
Print Assumptions C80_trace.

(** 1 x 1: right, with eigenvector (1). *)
Theorem C80_one : forall eps (A : matrix R) a, is_mat A 1 1 a ->
  exists v V h, dec_eigen eps A = Ret (v, V) /\ is_col v 1 (fun _ => a 0 0) /\ is_mat V 1 1 h /\ h 0 0 = 1%R /\
    is_eigenvector 1 a (a 0 0) (fun i => h i 0).
Proof. exact dec_eigen_one. Qed.
Print Assumptions C80_one.

(** 2 x 2: the diagonal of A is returned, whatever the other entries; with a nonzero entry below
    the diagonal (without it the call panics) these are eigenvalues exactly if A is lower triangular. *)
Theorem C80_two : forall eps (A : matrix R) a, is_mat A 2 2 a ->
  (a 1 0 = 0%R -> dec_eigen eps A = Panic) /\
  (a 1 0 <> 0%R -> (exists v V, dec_eigen eps A = Ret (v, V) /\ is_col v 2 (fun i => a i i)) /\
     ((forall i, i < 2 -> is_eigenvalue 2 a (a i i)) <-> a 0 1 = 0%R)).
Proof.
  intros eps A a HA. split.
  - intros Hz. apply (dec_eigen_panics eps A 2 a HA ltac:(lia)). intros i Hi. replace i with 1 by lia. exact Hz.
  - intros Hnz. split; [|apply two_diag_eigen; exact Hnz].
    destruct (proj2 (eigenvalue_r_two eps A a HA) Hnz) as (v & Ev & Hv). destruct (eigenvector_r_total A 2 a v _ HA Hv) as (V & h & EV & _).
    exists v, V. split; [|exact Hv]. apply (proj2 (dec_eigen_values eps A 2 a HA ltac:(lia) v V)). auto.
Qed.
Print Assumptions C80_two.
(** ((1,0),(3,2)): the diagonal 1, 2 is returned, its entries are the eigenvalues and add up to the trace. *)
Example C80_example : forall eps, exists v V, dec_eigen eps (mkMatrix 2 2 [1; 3; 0; 2]%R) = Ret (v, V) /\
  is_col v 2 (fun i => nth (i * 2 + i) [1; 3; 0; 2]%R 0%R) /\
  forall i, i < 2 -> is_eigenvalue 2 (fun i j => nth (j * 2 + i) [1; 3; 0; 2]%R 0%R) (nth (i * 2 + i) [1; 3; 0; 2]%R 0%R).
Proof.
  intros eps. assert (HA : is_mat (mkMatrix 2 2 [1; 3; 0; 2]%R) 2 2 (fun i j => nth (j * 2 + i) [1; 3; 0; 2]%R 0%R)).
  { split; [reflexivity|]. split; [reflexivity|]. intros i j Hi Hj. destruct i as [|[|i]]; try lia; (destruct j as [|[|j]]; try lia); reflexivity. }
  destruct (proj2 (C80_two eps _ _ HA)) as ((v & V & E & Hv) & Hiff); [cbn; lra|]. exists v, V. split; [exact E|]. split; [exact Hv|]. apply Hiff. reflexivity.
Qed.

(** So the symmetric matrix ((0,1),(1,0)), with eigenvalues 1 and -1, gets the values 0 and 0. *)
Theorem C80_symmetric_refuted : forall eps, exists v V g,
  dec_eigen eps (mkMatrix 2 2 [0; 1; 1; 0]%R) = Ret (v, V) /\ is_col v 2 g /\
  forall i, i < 2 -> g i = 0%R /\ ~ is_eigenvalue 2 (fun i j => nth (j * 2 + i) [0; 1; 1; 0]%R 0%R) (g i).
Proof.
  intros eps. pose proof (is_mat_list 0%R 2 2 [0; 1; 1; 0]%R eq_refl) as HA.
  destruct (proj2 (C80_two eps _ _ HA)) as ((v & V & E & Hv) & _); [simpl; lra|].
  exists v, V, (fun i => nth (i * 2 + i) [0; 1; 1; 0]%R 0%R). split; [exact E|]. split; [exact Hv|]. intros i Hi.
  assert (G : nth (i * 2 + i) [0; 1; 1; 0]%R 0%R = 0%R) by (destruct i as [|[|i]]; [reflexivity|reflexivity|lia]). cbv beta. rewrite G.
  split; [reflexivity|]. intros (x & (j & Hj & Hx) & H). apply Hx.
  pose proof (H 0 ltac:(lia)) as H0. pose proof (H 1 ltac:(lia)) as H1. simpl in H0, H1. destruct j as [|[|j]]; [lra|lra|lia].
Qed.
Print Assumptions C80_symmetric_refuted.

(** 3 x 3: the cyclic permutation matrix, whose only real eigenvalue is 1, gets a number that is none. *)
Theorem C80_three_refuted : forall eps, exists v g, eigenvalue_r eps (mkMatrix 3 3 [0; 1; 0; 0; 0; 1; 1; 0; 0]%R) = Ret v /\ is_col v 3 g /\
  exists i, i < 3 /\ ~ is_eigenvalue 3 (fun i j => nth (j * 3 + i) [0; 1; 0; 0; 0; 1; 1; 0; 0]%R 0%R) (g i).
Proof. exact cyc3_wrong. Qed.
Print Assumptions C80_three_refuted.

(** Rectangular and empty matrices panic; so does every matrix of size at least 2 with a first column
    that is zero below the diagonal, e.g. every upper triangular matrix, the identity among them. *)
Theorem C80_panics_refuted :
  (forall (T : Type) (O : Ops T) (P : POps T) (eps : T) (A : matrix T), rows A <> cols A \/ rows A = 0 -> dec_eigen eps A = Panic) /\
  (forall eps (A : matrix R) n a, is_mat A n n a -> 2 <= n -> (forall i, 1 <= i < n -> a i 0 = 0%R) -> dec_eigen eps A = Panic).
Proof. split; [intros T O P; exact dec_eigen_shape|exact dec_eigen_panics]. Qed.
Print Assumptions C80_panics_refuted.

(** * C81 *)

(** Once the eigenvalues are returned the eigenvectors are, too: one column for each. *)
Theorem C81_returns : forall eps (A : matrix R) n a v, is_mat A n n a -> 0 < n -> eigenvalue_r eps A = Ret v ->
  exists V h, dec_eigen eps A = Ret (v, V) /\ is_mat V n n h.
Proof.
  intros eps A n a v HA Hn E. destruct (eigenvalue_r_trace eps A n a v HA E) as (g & Hg & _).
  destruct (eigenvector_r_total A n a v g HA Hg) as (V & h & EV & HV). exists V, h. split; [|exact HV].
  apply (proj2 (dec_eigen_values eps A n a HA Hn v V)). auto.
Qed.
Print Assumptions C81_returns.

(** A column is an eigenvector when the LU decomposition of A - lambda I satisfies P (A - lambda I) = L U
    (i.e. no multiplier is left below a zero pivot) and U has exactly one zero on its diagonal. *)
Theorem C81_eigenvector : forall eps (A : matrix R) n a v V g h, is_mat A n n a -> dec_eigen eps A = Ret (v, V) ->
  is_col v n g -> is_mat V n n h ->
  forall c D d l u p, c < n -> is_mat D n n (fun i j => a i j - delta i j * g c)%R -> dec_lu D = Ret (Ok d) ->
    is_mat (lu_l d) n n l -> is_mat (lu_u d) n n u ->
    p < n -> u p p = 0%R -> (forall k, k < n -> k <> p -> u k k <> 0%R) -> (forall r, p < r < n -> l r p = 0%R) ->
  is_eigenvector n a (g c) (fun i => h i c) /\ h p c = 1%R.
Proof. exact dec_eigen_vector. Qed.
Print Assumptions C81_eigenvector.

(** 2 x 2 lower triangular: with a positive entry below the diagonal all pairs are right; with a
    negative one the first column is not an eigenvector. *)
Theorem C81_two_lower : forall eps (A : matrix R) a, is_mat A 2 2 a -> a 0 1 = 0%R -> a 1 0 <> 0%R ->
  exists v V h, dec_eigen eps A = Ret (v, V) /\ is_col v 2 (fun i => a i i) /\ is_mat V 2 2 h /\
    ((0 < a 1%nat 0%nat)%R -> forall c, c < 2 -> is_eigenvector 2 a (a c c) (fun i => h i c)) /\
    ((a 1%nat 0%nat < 0)%R -> ~ is_eigenvector 2 a (a 0%nat 0%nat) (fun i => h i 0)).
Proof. exact dec_eigen_lower. Qed.
Print Assumptions C81_two_lower.
Example C81_two_example : let a := fun i j => nth (j * 2 + i) [3; 1; 0; 5]%R 0%R in
  is_mat (mkMatrix 2 2 [3; 1; 0; 5]%R) 2 2 a /\ a 0%nat 1%nat = 0%R /\ (0 < a 1%nat 0%nat)%R.
Proof. split; [exact (is_mat_list 0%R 2 2 [3; 1; 0; 5]%R eq_refl)|]. simpl. lra. Qed.

(** Every other time the column is the zero vector: it is whenever U has no zero on its diagonal. *)
Theorem C81_zero_refuted : forall eps (A : matrix R) n a v V g h, is_mat A n n a -> dec_eigen eps A = Ret (v, V) ->
  is_col v n g -> is_mat V n n h ->
  forall c D, c < n -> is_mat D n n (fun i j => a i j - delta i j * g c)%R -> lu_regular D n ->
  forall i, i < n -> h i c = 0%R.
Proof. exact dec_eigen_zero. Qed.
Print Assumptions C81_zero_refuted.

(** E.g. for ((0,1),(1,0)) the eigenvector matrix is zero. *)
Theorem C81_symmetric_refuted : forall eps, exists v V h,
  dec_eigen eps (mkMatrix 2 2 [0; 1; 1; 0]%R) = Ret (v, V) /\ is_mat V 2 2 h /\ forall i c, i < 2 -> c < 2 -> h i c = 0%R.
Proof. exact sym2_vectors. Qed.
Print Assumptions C81_symmetric_refuted.
