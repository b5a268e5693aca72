(** Property theorems C20-C24 and C27: Cholesky, QR, Givens, Householder, Hessenberg, norms.

    Reading guide.  [is_mat A m n f]: A is an m x n matrix with entries [f i j]; [is_col]/[is_row]
    likewise for vectors.  [mulf n f g]: entries of the product with inner dimension n; [trf]
    transposes, [feq m n] compares m x n entries, [orthogonal], [symmetric], [pos_def],
    [hessenberg], [enorm] (sqrt of the sum of squares) are in Decomp_spec.v, [lower]/[upper] in
    LU_spec.v.  Theorems about [R] are about exact real arithmetic; theorems for every [Ops T] hold
    for f64 too. *)
From Coq Require Import Arith List Bool Lia Reals Lra SpecFloat.
From Verif Require Import Outcome Scalar Matrix_model Transpose_model Vector_model LU_model Decomp_model Int_model Matrix_spec LU_spec
  Decomp_spec RealOps Chol_proofs Norm_proofs Ortho_proofs Householder_proofs DecompProps_proofs Reflector_proofs.
Import ListNotations.
Local Open Scope nat_scope.

(** * C20 *)

(** Symmetric positive definite A: lower triangular L, positive diagonal, L L^T = A. *)
Theorem C20_cholesky_spd : forall (A : matrix R) n a, is_mat A n n a -> symmetric n a -> pos_def n a ->
  exists l g, dec_cholesky A = Ret (Ok l) /\ is_mat l n n g /\ lower n n g /\
    (forall i, i < n -> (0 < g i i)%R) /\ feq n n (mulf n g (trf g)) a.
Proof. intros A n a HA Hs Hp. apply dec_cholesky_ok; auto. Qed.
Print Assumptions C20_cholesky_spd.

Example C20_example : is_mat (mkMatrix 2 2 [2; 1; 1; 2]%R) 2 2 exSPD /\ symmetric 2 exSPD /\ pos_def 2 exSPD.
Proof. split; [exact exSPD_mat|]. split; [exact exSPD_sym|exact exSPD_pd]. Qed.

(** For symmetric A the diagonal of the returned L is positive exactly when A is positive definite. *)
Theorem C20_positive_iff : forall (A : matrix R) n a, is_mat A n n a -> symmetric n a ->
  (pos_def n a <-> forall l k x, dec_cholesky A = Ret (Ok l) -> k < n -> mget l k k = Ret x -> (0 < x)%R).
Proof. exact chol_iff. Qed.
Print Assumptions C20_positive_iff.

(** ... and when it is positive, L L^T = A. *)
Theorem C20_positive_diagonal : forall (A : matrix R) n a, is_mat A n n a -> symmetric n a ->
  (forall l k x, dec_cholesky A = Ret (Ok l) -> k < n -> mget l k k = Ret x -> (0 < x)%R) ->
  exists l g, dec_cholesky A = Ret (Ok l) /\ is_mat l n n g /\ lower n n g /\ feq n n (mulf n g (trf g)) a.
Proof. intros A n a HA Hs Hp. destruct (dec_cholesky_ok A n a HA Hs (or_intror Hp)) as (l & g & E & Hl & Hlo & _ & Hq). exists l, g. auto. Qed.
Print Assumptions C20_positive_diagonal.

(** The factor with positive diagonal is unique, so the result is the Cholesky factor. *)
Theorem C20_unique : forall n (a g g' : nat -> nat -> R),
  feq n n (mulf n g (trf g)) a -> lower n n g -> (forall i, i < n -> (0 < g i i)%R) ->
  feq n n (mulf n g' (trf g')) a -> lower n n g' -> (forall i, i < n -> (0 < g' i i)%R) -> feq n n g g'.
Proof. exact chol_factor_unique. Qed.
Print Assumptions C20_unique.

(** Every square matrix of any element type gives Ok with a lower triangular L: never Err. *)
Theorem C20_never_err : forall (T : Type) (O : Ops T) (P : POps T) (A : matrix T) n a, is_mat A n n a ->
  exists l g, dec_cholesky A = Ret (Ok l) /\ is_mat l n n g /\ lower n n g.
Proof.
  intros T O P A n a HA. destruct (dec_cholesky_spec A n a HA) as (l & g & E & Hl & Hg). exists l, g. split; [assumption|]. split; [assumption|].
  intros i j Hi Hj Hij. rewrite (Hg i j Hi Hj). apply Nat.ltb_lt in Hij. rewrite Hij. reflexivity.
Qed.
Print Assumptions C20_never_err.

(** Only the lower triangle (with the diagonal) is read. *)
Theorem C20_reads_lower_triangle : forall (T : Type) (O : Ops T) (P : POps T) (A A' : matrix T) n a a',
  is_mat A n n a -> is_mat A' n n a' -> (forall r c, r < n -> c <= r -> a r c = a' r c) ->
  dec_cholesky A = dec_cholesky A'.
Proof. intros T O P. exact dec_cholesky_lower. Qed.
Print Assumptions C20_reads_lower_triangle.

Theorem C20_nonsquare_panics : forall (T : Type) (O : Ops T) (P : POps T) (A : matrix T), rows A <> cols A -> dec_cholesky A = Panic.
Proof. intros T O P. exact dec_cholesky_nonsquare. Qed.
Print Assumptions C20_nonsquare_panics.

(** A matrix that has no Cholesky factor (the f64 matrix [[-1]]) is not reported: Ok with NaN, given
    that [powf] of -1.0 and 0.5 is NaN (as IEEE 754 requires). *)
Theorem C20_not_reported_refuted : forall pw : f64 -> f64 -> f64,
  pw (S754_finite true 4503599627370496 (-52)) (S754_finite false 4503599627370496 (-53)) = S754_nan ->
  @dec_cholesky f64 F64_ops (F64_pops pw) (mkMatrix 1 1 [S754_finite true 4503599627370496 (-52)]) = Ret (Ok (mkMatrix 1 1 [S754_nan])).
Proof. intros pw H. vm_compute. rewrite H. reflexivity. Qed.
Print Assumptions C20_not_reported_refuted.

(** * C21 *)

(** m >= n >= 0, m >= 1: Q is orthogonal (m x m), Q R = A, and below every non-zero diagonal element
    of R there are only zeros. *)
Theorem C21_qr : forall (A : matrix R) m n a, is_mat A m n a -> n <= m -> 0 < m ->
  exists Q R fq fr, dec_qr A = Ret (Q, R) /\ is_mat Q m m fq /\ is_mat R m n fr /\
    orthogonal m fq /\ feq m n (mulf m fq fr) a /\
    (forall c, c < n -> fr c c <> 0%R -> forall i, c < i < m -> fr i c = 0%R).
Proof.
  intros A m n a HA Hnm Hm. destruct (dec_qr_spec A m n a HA Hnm Hm) as (Q & R & fq & fr & E & HQ & HR & Ho & Hp & Hz & _).
  exists Q, R, fq, fr. auto 10.
Qed.
Print Assumptions C21_qr.

Example C21_example : is_mat (mkMatrix 3 2 [1; 2; 3; 4; 5; 6]%R) 3 2 (fun i j => nth (j * 3 + i) [1; 2; 3; 4; 5; 6]%R 0%R) /\ 2 <= 3 /\ 0 < 3.
Proof. split; [apply is_mat_list; reflexivity|lia]. Qed.

(** If R has a non-zero diagonal it is upper triangular. *)
Theorem C21_upper : forall (A : matrix R) m n a Q R fr, is_mat A m n a -> n <= m -> 0 < m ->
  dec_qr A = Ret (Q, R) -> is_mat R m n fr -> (forall c, c < n -> fr c c <> 0%R) -> upper m n fr.
Proof.
  intros A m n a Q R fr HA Hnm Hm E HR Hd i j Hi Hj Hij.
  destruct (dec_qr_spec A m n a HA Hnm Hm) as (Q' & R' & fq & fr' & E' & HQ & HR' & _ & _ & Hz & _).
  rewrite E in E'. injection E' as <- <-.
  rewrite (Matrix_proofs.is_mat_entry_unique R m n fr fr' i j HR HR' Hi Hj).
  apply Hz; [assumption| |lia]. rewrite (Matrix_proofs.is_mat_entry_unique R m n fr' fr j j HR' HR) by lia. auto.
Qed.
Print Assumptions C21_upper.

(** The first column is eliminated whenever the top left element is not zero. *)
Theorem C21_first_column : forall (A : matrix R) m n a, is_mat A m n a -> n <= m -> 0 < n -> a 0 0 <> 0%R ->
  exists Q R fr, dec_qr A = Ret (Q, R) /\ is_mat R m n fr /\ fr 0 0 <> 0%R /\ forall i, 0 < i < m -> fr i 0 = 0%R.
Proof.
  intros A m n a HA Hnm Hn H0. destruct (dec_qr_spec A m n a HA Hnm ltac:(lia)) as (Q & R & fq & fr & E & HQ & HR & Ho & Hp & Hz & Hf).
  exists Q, R, fr. split; [assumption|]. split; [assumption|]. split; [auto|]. apply Hz; auto.
Qed.
Print Assumptions C21_first_column.

Theorem C21_wide_panics : forall (T : Type) (O : Ops T) (P : POps T) (A : matrix T), rows A < cols A -> dec_qr A = Panic.
Proof. intros T O P A H. unfold dec_qr. apply Nat.leb_gt in H. rewrite H. reflexivity. Qed.
Print Assumptions C21_wide_panics.

(** An upper triangular A (m >= n, m >= 1) is left alone, over any element type: Q is the identity, R is A. *)
Theorem C21_upper_triangular : forall (T : Type) (O : Ops T) (P : POps T) (A : matrix T) m n a, eqb zero zero = true ->
  is_mat A m n a -> n <= m -> 0 < m -> (forall i j, j < i < m -> j < n -> a i j = zero) ->
  exists I, mone m = Ret I /\ dec_qr A = Ret (I, A).
Proof. exact dec_qr_upper. Qed.
Print Assumptions C21_upper_triangular.

(** R need not be upper triangular: the swap matrix comes back unchanged. *)
Theorem C21_not_upper_refuted : exists (A : matrix R) Q R, dim A = (2, 2) /\ wf A /\ dec_qr A = Ret (Q, R) /\ mget R 1 0 = Ret 1%R.
Proof.
  exists (mkMatrix 2 2 [0; 1; 1; 0]%R), (mkMatrix 2 2 [1; 0; 0; 1]%R), (mkMatrix 2 2 [0; 1; 1; 0]%R).
  split; [reflexivity|]. split; [reflexivity|]. split; [|reflexivity]. apply (dec_qr_swap R R_ops R_pops). apply R_eqb_true. reflexivity.
Qed.
Print Assumptions C21_not_upper_refuted.

(** * C22 *)

(** The identity except for the 2 x 2 block; the effect on a column x is the plane rotation of the
    components i and j. *)
Theorem C22_givens_entries : forall (T : Type) (O : Ops T) m i j (c s : T), i < m -> j < m -> i <> j ->
  exists G g, mgivens m i j c s = Ret G /\ is_mat G m m g /\
    g i i = c /\ g j j = c /\ g i j = s /\ g j i = neg s /\
    forall r t, r < m -> t < m -> ~ ((r = i \/ r = j) /\ (t = i \/ t = j)) -> g r t = if r =? t then one else zero.
Proof.
  intros T O m i j c s Hi Hj Hij. destruct (mgivens_spec m i j c s Hi Hj Hij) as (G & E & HG).
  exists G, (gvf i j c s). split; [assumption|]. split; [assumption|]. unfold gvf, delta.
  rewrite !Nat.eqb_refl. destruct (Nat.eqb_spec j i); [congruence|]. destruct (Nat.eqb_spec i j); [congruence|].
  split; [reflexivity|]. split; [reflexivity|]. split; [reflexivity|]. split; [reflexivity|].
  intros r t Hr Ht H. destruct (Nat.eqb_spec r i); destruct (Nat.eqb_spec r j); destruct (Nat.eqb_spec t i); destruct (Nat.eqb_spec t j);
    destruct (Nat.eqb_spec r t); subst; try congruence; tauto.
Qed.
Print Assumptions C22_givens_entries.

Theorem C22_givens_rotates : forall (T : Type) (O : Ops T), RingLaws O -> forall m i j (c s : T) (x : nat -> T), i < m -> j < m -> i <> j ->
  exists G g, mgivens m i j c s = Ret G /\ is_mat G m m g /\ forall r, r < m ->
    sumn m (fun l => mul (g r l) (x l)) =
    if r =? i then add (mul c (x i)) (mul s (x j)) else if r =? j then add (mul (neg s) (x i)) (mul c (x j)) else x r.
Proof.
  intros T O L m i j c s x Hi Hj Hij. destruct (mgivens_spec m i j c s Hi Hj Hij) as (G & E & HG). exists G, (gvf i j c s).
  split; [assumption|]. split; [assumption|]. intros r Hr. apply (gvf_act L); assumption.
Qed.
Print Assumptions C22_givens_rotates.

(** Orthogonal exactly when c^2 + s^2 = 1. *)
Theorem C22_givens_orthogonal_iff : forall (T : Type) (O : Ops T), RingLaws O -> forall m i j (c s : T), i < m -> j < m -> i <> j ->
  exists G g, mgivens m i j c s = Ret G /\ is_mat G m m g /\ (orthogonal m g <-> add (mul c c) (mul s s) = one).
Proof.
  intros T O L m i j c s Hi Hj Hij. destruct (mgivens_spec m i j c s Hi Hj Hij) as (G & E & HG). exists G, (gvf i j c s).
  split; [assumption|]. split; [assumption|]. split; [apply (gvf_orthogonal_conv L); assumption|apply (gvf_orthogonal L); assumption].
Qed.
Print Assumptions C22_givens_orthogonal_iff.

Example C22_example : RingLaws Qc_ops /\ 0 < 3 /\ 2 < 3 /\ 0 <> 2.
Proof. split; [exact Qc_RingLaws|lia]. Qed.

Theorem C22_givens_panics : forall (T : Type) (O : Ops T) m i j (c s : T), m <= i \/ m <= j -> mgivens m i j c s = Panic.
Proof. intros T O. exact mgivens_panic. Qed.
Print Assumptions C22_givens_panics.

(** i = j is accepted and gives the identity with -s at (i,i). *)
Theorem C22_givens_same_index_refuted : forall (T : Type) (O : Ops T) m i (c s : T), i < m ->
  exists G g, mgivens m i i c s = Ret G /\ is_mat G m m g /\ g i i = neg s.
Proof.
  intros T O m i c s Hi. destruct (mgivens_same m i c s Hi) as (G & E & HG). exists G, (fupd delta i i (neg s)). split; [assumption|]. split; [assumption|].
  unfold fupd. rewrite Nat.eqb_refl. reflexivity.
Qed.
Print Assumptions C22_givens_same_index_refuted.

(** The pair is on the unit circle and annihilates the second component: s a + c b = 0. *)
Theorem C22_pair : forall a b : R, exists c s, givens_pair a b = (c, s) /\ (c * c + s * s = 1 /\ s * a + c * b = 0)%R.
Proof. intros a b. pose proof (givens_pair_spec a b) as H. destruct (givens_pair a b) as [c s]. exists c, s. auto. Qed.
Print Assumptions C22_pair.

(** * C23 *)

(** v has at least two components, k is an index and v[k..] is not zero. *)
Theorem C23_householder : forall (v : vector R) m f k, is_col v m f -> k < m -> 2 <= m ->
  (exists i, k <= i < m /\ f i <> 0%R) ->
  exists H h al, mhouseholder v k = Ret H /\ is_mat H m m h /\ symmetric m h /\ orthogonal m h /\
    (forall r c, r < m -> c < m -> r < k \/ c < k -> h r c = if r =? c then 1%R else 0%R) /\
    Rabs al = enorm (m - k) (fun i => f (k + i)) /\ (al * f k <= 0)%R /\ al <> 0%R /\
    (forall r, r < m -> sumn m (fun c => h r c * f c)%R = if r <? k then f r else if r =? k then al else 0%R).
Proof.
  intros v m f k Hv Hk Hm Hnz. destruct (mhouseholder_spec v m f k Hv Hk Hm Hnz) as (H & h & E & HH & Hs & Ho & Hid & Hal & Hact & _).
  set (N := enorm (m - k) (fun i => f (k + i))) in *.
  exists H, h, (if Rle_dec 0 (f k) then - N else N)%R. pose proof (enorm_nonneg (m - k) (fun i => f (k + i))) as HN. fold N in HN.
  split; [assumption|]. split; [assumption|]. split; [assumption|]. split; [assumption|]. split; [exact Hid|].
  split. { destruct (Rle_dec 0 (f k)); [rewrite Rabs_Ropp|]; apply Rabs_pos_eq; assumption. }
  split. { destruct (Rle_dec 0 (f k)); nra. }
  split; assumption.
Qed.
Print Assumptions C23_householder.

Example C23_example : is_col (mkMatrix 3 1 [1; 2; 2]%R) 3 (fun i => nth i [1; 2; 2]%R 0%R) /\ 1 < 3 /\ 2 <= 3 /\
  exists i, 1 <= i < 3 /\ nth i [1; 2; 2]%R 0%R <> 0%R.
Proof. split; [apply is_col_list; reflexivity|]. split; [lia|]. split; [lia|]. exists 1. split; [lia|]. simpl. lra. Qed.

(** One component: the 1 x 1 identity. *)
Theorem C23_single : forall (v : vector R) f, is_col v 1 f -> mhouseholder v 0 = mone 1.
Proof. exact mhouseholder_one. Qed.
Print Assumptions C23_single.

(** v[k..] = 0: the result is 1 x 1, of the wrong size. *)
Theorem C23_zero_tail_refuted : forall (v : vector R) m f k, is_col v m f -> k < m -> 2 <= m ->
  (forall i, k <= i < m -> f i = 0%R) -> exists H, mhouseholder v k = Ret H /\ dim H = (1, 1).
Proof.
  intros v m f k Hv Hk Hm Hz. rewrite (mhouseholder_zero v m f k Hv Hk Hm Hz).
  destruct (Matrix_proofs.mone_spec (T:=R) 1) as (I & E & HI). exists I. split; [exact E|]. apply HI.
Qed.
Print Assumptions C23_zero_tail_refuted.

Theorem C23_panics : forall (T : Type) (O : Ops T) (P : POps T) (v : vector T) k, rows v <= k -> mhouseholder v k = Panic.
Proof. intros T O P. exact mhouseholder_panic. Qed.
Print Assumptions C23_panics.

(** Vector::reflector divides only the first component of v + sign(v_0) |v| e_0 by its length and
    leaves the others alone. *)
Theorem C23_reflector : forall (v : vector R) n f, is_col v n f -> 1 <= n ->
  exists r g, vreflector fsign v = Ret r /\ is_col r n g /\
    g 0 = ((f 0%nat + fsign (f 0%nat) * enorm n f) / enorm n (fun i => if (i =? 0)%nat then f 0%nat + fsign (f 0%nat) * enorm n f else f i))%R /\
    (forall i, 0 < i < n -> g i = f i).
Proof. exact vreflector_ok. Qed.
Print Assumptions C23_reflector.

(** So the answer generates a Householder reflection of v onto the first axis exactly when that
    vector has length one already (v_0 and some other component not zero). *)
Theorem C23_reflector_iff : forall (v : vector R) n f, is_col v n f ->
  f 0 <> 0%R -> (exists i, 0 < i < n /\ f i <> 0%R) ->
  exists r g, vreflector fsign v = Ret r /\ is_col r n g /\
    ((forall i, 0 < i < n -> (f i - 2 * sumn n (fun j => g j * f j) / sumn n (fun j => g j * g j) * g i = 0)%R) <->
     enorm n (fun i => if (i =? 0)%nat then f 0%nat + fsign (f 0%nat) * enorm n f else f i)%R = 1%R).
Proof.
  intros v n f Hv H0 Hk. assert (Hn : 1 <= n) by (destruct Hk as (k & Hk & _); lia).
  destruct (vreflector_ok v n f Hv Hn) as (r & g & E & Hr & G0 & G). exists r, g. split; [exact E|]. split; [exact Hr|].
  exact (reflector_iff n f g Hk H0 G0 G).
Qed.
Print Assumptions C23_reflector_iff.

(** For (3,4) it does not, and a vector starting with zero is answered unchanged. *)
Theorem C23_reflector_refuted :
  (exists r g, vreflector fsign (mkMatrix 2 1 [3; 4]%R) = Ret r /\ is_col r 2 g /\
     (4 - 2 * sumn 2 (fun j => g j * nth j [3; 4] 0) / sumn 2 (fun j => g j * g j) * g 1%nat <> 0)%R) /\
  (forall (v : vector R) n f, is_col v n f -> 1 <= n -> f 0 = 0%R -> vreflector fsign v = Ret v).
Proof.
  split.
  - pose proof (is_col_list 0%R 2 [3; 4]%R eq_refl) as Hv.
    destruct (C23_reflector_iff _ 2 _ Hv) as (r & g & E & Hr & I); [simpl; lra|exists 1; simpl; split; [lia|lra]|].
    exists r, g. split; [exact E|]. split; [exact Hr|]. intros Z. apply shifted_34. apply I. intros i Hi. replace i with 1 by lia. exact Z.
  - intros v n f Hv Hn H0. destruct (vreflector_ok v n f Hv Hn) as (r & g & E & Hr & G0 & G). rewrite E. f_equal.
    apply (Matrix_proofs.is_mat_unique _ _ _ _ _ Hr). eapply Matrix_proofs.is_mat_ext; [|exact Hv]. intros i j Hi Hj. destruct i.
    + rewrite H0, G0. symmetry. exact (reflector_zero_first n f H0).
    + symmetry. apply G. lia.
Qed.
Print Assumptions C23_reflector_refuted.

(** * C24 *)

(** Whenever it returns, Q is orthogonal, H is upper Hessenberg (with non-zero subdiagonal) and
    Q H Q^T = A. *)
Theorem C24_hessenberg : forall (A : matrix R) n a Q H, is_mat A n n a -> dec_hessenberg A = Ret (Q, H) ->
  exists fq fh, is_mat Q n n fq /\ is_mat H n n fh /\ orthogonal n fq /\ hessenberg n fh /\
    feq n n (mulf n (mulf n fq fh) (trf fq)) a /\ (forall c, c + 1 < n -> fh (c + 1) c <> 0%R).
Proof. exact dec_hessenberg_spec. Qed.
Print Assumptions C24_hessenberg.

(** It does return for every matrix that already is Hessenberg with non-zero subdiagonal. *)
Theorem C24_returns : forall (A : matrix R) n a, is_mat A n n a -> 0 < n -> hessenberg n a ->
  (forall c, c + 1 < n -> a (c + 1) c <> 0%R) -> exists Q H, dec_hessenberg A = Ret (Q, H).
Proof. exact dec_hessenberg_returns. Qed.
Print Assumptions C24_returns.

Example C24_example : exists Q H, dec_hessenberg (mkMatrix 3 3 [1; 2; 0; 3; 4; 5; 6; 7; 8]%R) = Ret (Q, H).
Proof.
  apply (dec_hessenberg_returns _ 3 _ (is_mat_list 0%R 3 3 [1; 2; 0; 3; 4; 5; 6; 7; 8]%R eq_refl)); [lia| |].
  - intros i j Hi Hj Hij. assert (i = 2 /\ j = 0) as [-> ->] by lia. reflexivity.
  - intros c Hc. destruct c as [|[|c]]; [simpl; lra|simpl; lra|lia].
Qed.

(** It panics on every matrix of size at least 2 whose first column is zero below the diagonal, e.g.
    every upper triangular matrix, the identity among them. *)
Theorem C24_panics_refuted : forall (A : matrix R) n a, is_mat A n n a -> 2 <= n ->
  (forall i, 1 <= i < n -> a i 0 = 0%R) -> dec_hessenberg A = Panic.
Proof. exact dec_hessenberg_panic. Qed.
Print Assumptions C24_panics_refuted.

(** * C27 *)

(** p_norm with p = 2 (and eucl_norm) of a column or row vector of length n is the Euclidean norm:
    non-negative, zero only for the zero vector, absolutely homogeneous. *)
Theorem C27_euclidean : forall (v : vector R) n f, is_col v n f \/ is_row v n f ->
  exists N, vp_norm v 2%R = Ret N /\ veucl_norm v = Ret N /\ N = enorm n f /\ (0 <= N)%R /\
    (N = 0%R <-> forall i, i < n -> f i = 0%R) /\
    (forall c, vp_norm (vmul_scalar v c) 2%R = Ret (Rabs c * N)%R).
Proof. exact euclid_norm. Qed.
Print Assumptions C27_euclidean.

Theorem C27_triangle : forall (v w : vector R) n f g, is_col v n f /\ is_col w n g \/ is_row v n f /\ is_row w n g ->
  exists u a b c, vadd v w = Ret u /\ vp_norm v 2%R = Ret a /\ vp_norm w 2%R = Ret b /\ vp_norm u 2%R = Ret c /\ (c <= a + b)%R.
Proof. exact euclid_triangle. Qed.
Print Assumptions C27_triangle.

Example C27_example : is_col (mkMatrix 2 1 [3; -4]%R) 2 (fun i => nth i [3; -4]%R 0%R).
Proof. apply is_col_list; reflexivity. Qed.

(** Even p: the p-th root of the sum of |x_i|^p. *)
Theorem C27_even_p : forall (v : vector R) n f k, is_col v n f \/ is_row v n f -> 1 <= k ->
  vp_norm v (INR (2 * k)) = Ret (R_pow (sumn n (fun i => Rabs (f i) ^ (2 * k))%R) (1 / INR (2 * k))).
Proof. exact p_norm_even. Qed.
Print Assumptions C27_even_p.

(** p < 1 panics (any element type; for f64 also p = NaN). *)
Theorem C27_small_p_panics : forall (T : Type) (O : Ops T) (P : POps T) (v : vector T) p, leb one p = false -> vp_norm v p = Panic.
Proof. intros T O P. exact vp_norm_panic. Qed.
Print Assumptions C27_small_p_panics.

(** p = 1 is not a norm: it is zero on (1,-1) and negative on (-1). *)
Theorem C27_odd_p_refuted :
  vp_norm (mkMatrix 2 1 [1; -1]%R) 1%R = Ret 0%R /\ vp_norm (mkMatrix 1 1 [-1]%R) 1%R = Ret (-1)%R.
Proof. split; [exact p_norm_odd_witness|exact p_norm_odd_negative]. Qed.
Print Assumptions C27_odd_p_refuted.
