(** Property theorems C87-C89, and C38 for the comparison macros.

    Reading guide (Misc_spec.v).  Text is a list of characters and [show] the Display implementation of
    the element type.  [join sep l]: the pieces of l with sep between them.  [terms eps p]: the exponents
    and coefficients of p that are not within eps of zero, lowest first.  [power_text i]: nothing, x, x^2,
    x^3, ...  [row_text]: the elements of a row, each followed by a blank, then a line feed.  [plain show]:
    different elements print differently, never as nothing, without blanks, line feeds and the letter x.
    [gen_state gen k s]: the state of the generator after k draws.  [pfmt], [mfmt], [cfmt] model the
    Display implementations, [next_calls next k s] k calls of next. *)
From Coq Require Import Ascii String QArith Qcanon Reals Lra Arith Lia List Bool.
From Verif Require Import Outcome Scalar RealOps Matrix_model Vector_model Int_model Complex_model Approx_model Poly_model Matrix_spec Matrix_proofs
  ScalarEq_proofs Misc_model Misc_spec Misc_proofs.
Import ListNotations.
Local Close Scope Q_scope.
Local Close Scope Qc_scope.

(** * C87: printed form *)

(** A polynomial prints as its terms above the default epsilon, lowest exponent first, joined by " + ". *)
Theorem C87_polynomial : forall (T : Type) (O : Ops T) (show : T -> text) (eps : T) (p : poly T),
  pfmt show eps p = join (lits " + ") (map (fun ia => show (snd ia) ++ power_text (fst ia)) (terms eps p)).
Proof. intros. apply pfmt_terms. Qed.
Print Assumptions C87_polynomial.
(** The text determines these terms: two polynomials print alike exactly if they have the same ones. *)
Theorem C87_polynomial_inj : forall (T : Type) (O : Ops T) (show : T -> text) (eps : T) (p q : poly T), plain show ->
  pfmt show eps p = pfmt show eps q <-> terms eps p = terms eps q.
Proof. intros. now apply pfmt_inj. Qed.
Print Assumptions C87_polynomial_inj.
(** A polynomial prints as the empty text exactly if all its coefficients are within epsilon of zero: the zero
    polynomial prints as nothing, not as 0. *)
Theorem C87_polynomial_empty : forall (T : Type) (O : Ops T) (show : T -> text) (eps : T) (p : poly T), plain show ->
  pfmt show eps p = [] <-> forall a, In a p -> sabs_diff_eq a zero eps = true.
Proof.
  intros T O show eps p H. rewrite (pfmt_empty show eps H). unfold sabs_diff_ne.
  split; intros K a Ha; specialize (K a Ha); destruct (sabs_diff_eq a zero eps); auto; discriminate.
Qed.
Print Assumptions C87_polynomial_empty.
Theorem C87_zero_polynomial_refuted : pfmt show_Qc (Q2Qc (1 # 1000)) [Q2Qc 0] = [].
Proof. vm_compute. reflexivity. Qed.
Print Assumptions C87_zero_polynomial_refuted.

(** A matrix prints as a line feed, its rows, and a line feed. *)
Theorem C87_matrix : forall (T : Type) (show : T -> text) (A : matrix T) m n f, is_mat A m n f ->
  mfmt show A = Ret ([ascii_of_nat 10] ++ flat_map (fun i => row_text show (map (f i) (seq 0 n))) (seq 0 m) ++ [ascii_of_nat 10]).
Proof. intros. now apply mfmt_ok. Qed.
Print Assumptions C87_matrix.
(** The text determines the matrix, its shape included, unless it has no rows. *)
Theorem C87_matrix_inj : forall (T : Type) (show : T -> text) (A B : matrix T) m n f m' n' g, plain show ->
  is_mat A m n f -> is_mat B m' n' g -> (0 < m)%nat -> mfmt show A = mfmt show B -> A = B.
Proof. intros. eapply mfmt_inj; eassumption. Qed.
Print Assumptions C87_matrix_inj.
Theorem C87_matrix_inj_refuted : exists A B : matrix Qc, is_mat A 0 1 (fun _ _ => zero) /\ is_mat B 0 2 (fun _ _ => zero) /\
  mfmt show_Qc A = mfmt show_Qc B /\ A <> B.
Proof.
  exists (mkMatrix 0 1 []), (mkMatrix 0 2 []).
  split; [apply is_mat_intro; cbn; auto; intros; lia|]. split; [apply is_mat_intro; cbn; auto; intros; lia|]. split; [reflexivity|discriminate].
Qed.
Print Assumptions C87_matrix_inj_refuted.

Theorem C87_complex : forall (T : Type) (show : T -> text) (z w : cplx T), plain show ->
  cfmt show z = show (re z) ++ lits " + " ++ show (im z) ++ lits "i" /\ (cfmt show z = cfmt show w -> z = w).
Proof. intros T show z w H. split; [reflexivity|]. now apply cfmt_inj. Qed.
Print Assumptions C87_complex.

Example C87_example : plain show_Qc /\
  pfmt show_Qc (Q2Qc (1 # 1000)) [Q2Qc (3 # 2); Q2Qc (1 # 2000); Q2Qc (- 4 # 1); Q2Qc 1] = lits "3/2 + -4/1x^2 + 1/1x^3".
Proof. split; [exact show_Qc_plain|]. vm_compute. reflexivity. Qed.

(** * C88: random matrices and samples *)

(** A random matrix has the requested shape, but all its entries are the same single draw. *)
Theorem C88_random_matrix : forall (T S : Type) (gen : S -> T * S) s m n,
  exists A, mnew_random gen s m n = Ret (A, gen_state gen 1 s) /\ is_mat A m n (fun _ _ => fst (gen s)).
Proof. intros. apply mnew_random_ok. Qed.
Print Assumptions C88_random_matrix.
Theorem C88_random_vectors : forall (T S : Type) (gen : S -> T * S) s m,
  (exists v, vnew_row_random gen s m = Ret (v, gen_state gen 1 s) /\ is_mat v 1 m (fun _ _ => fst (gen s))) /\
  (exists v, vnew_column_random gen s m = Ret (v, gen_state gen 1 s) /\ is_col v m (fun _ => fst (gen s))).
Proof. intros. split; apply mnew_random_ok. Qed.
Print Assumptions C88_random_vectors.
(** So entries at different places are never independent: with a generator whose draws are all different, the
    entries of a random matrix still coincide. *)
Theorem C88_independent_refuted : exists gen : nat -> nat * nat, (forall i j, fst (gen (gen_state gen i 0)) = fst (gen (gen_state gen j 0)) -> i = j) /\
  forall m n i j i' j' A s, (i < m)%nat -> (j < n)%nat -> (i' < m)%nat -> (j' < n)%nat ->
    mnew_random gen 0%nat m n = Ret (A, s) -> mget A i j = mget A i' j'.
Proof.
  exists (fun s => (s, Datatypes.S s)). split.
  - assert (G : forall k s, gen_state (fun s : nat => (s, Datatypes.S s)) k s = (k + s)%nat) by (induction k as [|k IH]; intros s; cbn; [reflexivity|rewrite IH; lia]).
    intros i j. cbn [fst]. rewrite !G. lia.
  - intros m n i j i' j' A s Hi Hj Hi' Hj' E. destruct (mnew_random_ok (fun s => (s, Datatypes.S s)) 0%nat m n) as (B & E' & HB). rewrite E' in E. injection E as -> _.
    now rewrite (is_mat_get _ _ _ _ _ _ HB Hi Hj), (is_mat_get _ _ _ _ _ _ HB Hi' Hj').
Qed.
Print Assumptions C88_independent_refuted.
(** A random sample of a distribution, in contrast, consists of consecutive draws. *)
Theorem C88_random_sequence : forall (T S : Type) (gen : S -> T * S) s k,
  length (fst (random_sequence gen s k)) = k /\ snd (random_sequence gen s k) = gen_state gen k s /\
  forall i, (i < k)%nat -> nth_error (fst (random_sequence gen s k)) i = Some (fst (gen (gen_state gen i s))).
Proof. intros. apply random_sequence_ok. Qed.
Print Assumptions C88_random_sequence.
(** A counter as generator: a 2x3 matrix has six equal entries, a sequence of three has three draws. *)
Example C88_example : let gen := fun s : nat => ((s * s)%nat, S s) in
  mnew_random gen 3 2 3 = Ret (mkMatrix 2 3 [9; 9; 9; 9; 9; 9]%nat, 4%nat) /\ random_sequence gen 3%nat 3 = ([9; 16; 25]%nat, 6%nat).
Proof. split; reflexivity. Qed.

(** * C89: element iteration and small vector functions *)

(** Iterating over a matrix or vector yields every element once, column by column, and then None forever. *)
Theorem C89_into_iter : forall (T : Type) (A : matrix T) m n f k, is_mat A m n f ->
  next_calls elem_next (m * n + k) (minto_iter A) = Ret (map (fun x => Some (f (x mod m) (x / m))) (seq 0 (m * n)) ++ repeat None k).
Proof. intros. now apply into_iter_ok. Qed.
Print Assumptions C89_into_iter.
(** A loop over iter_mut visits the elements in the same order, carrying a state, and leaves what it assigned. *)
Theorem C89_iter_mut : forall (T S : Type) (body : S -> T -> T * S) s (A : matrix T) m n f, is_mat A m n f ->
  exists st : nat -> S, st 0%nat = s /\ snd (miter_mut body s A) = st (m * n)%nat /\
    (forall i j, (i < m)%nat -> (j < n)%nat -> st (Datatypes.S (j * m + i)) = snd (body (st (j * m + i)%nat) (f i j))) /\
    is_mat (fst (miter_mut body s A)) m n (fun i j => fst (body (st (j * m + i)%nat) (f i j))).
Proof. intros. now apply miter_mut_ok. Qed.
Print Assumptions C89_iter_mut.
(** Turning a vector into a matrix keeps shape and entries. *)
Theorem C89_from_vector : forall (T : Type) (v : vector T), wf v -> mfrom_vector v = Ret v.
Proof. intros. now apply from_vector_ok. Qed.
Print Assumptions C89_from_vector.
(** Sign and absolute value work entry by entry. *)
Theorem C89_sign_abs : forall (v : vector R) m n f, is_mat v m n f ->
  (exists g, is_mat (vsign v) m n g /\
    forall i j, ((0 < f i j -> g i j = 1) /\ (f i j = 0 -> g i j = 0) /\ (f i j < 0 -> g i j = -1))%R) /\
  is_mat (vabs v) m n (fun i j => Rabs (f i j)).
Proof.
  intros v m n f H. split.
  - exists (fun i j => fsign (f i j)). split; [exact (mapply_spec fsign v m n f H)|]. intros i j. apply fsign_R.
  - eapply is_mat_ext; [|exact (mapply_spec fabs v m n f H)]. intros i j _ _. cbn. apply fabs_R.
Qed.
Print Assumptions C89_sign_abs.
(** compare_neighbourhood on column vectors: every pair of entries is within epsilon. *)
Theorem C89_compare : forall (v w : vector R) eps m f g, is_col v m f -> is_col w m g ->
  exists b, vcompare_neighbourhood v w eps = Ret b /\ (b = true <-> forall i, (i < m)%nat -> (Rabs (f i - g i) <= eps)%R).
Proof.
  intros v w eps m f g Hv Hw. destruct (compare_ok v w eps m f g Hv Hw) as (b & E & H). exists b. split; [exact E|]. rewrite H.
  split; intros K i Hi; specialize (K i Hi); rewrite fabs_R in *.
  - now apply R_ltb_false in K.
  - now apply R_ltb_false.
Qed.
Print Assumptions C89_compare.
Theorem C89_compare_shape : forall (v w : vector R) eps, dim v <> dim w -> vcompare_neighbourhood v w eps = Ret false.
Proof. intros. now apply compare_dims. Qed.
Print Assumptions C89_compare_shape.
(** On row vectors only the first entries are compared. *)
Theorem C89_compare_row : forall (v w : vector R) eps n f g, is_mat v 1 n f -> is_mat w 1 n g -> (0 < n)%nat ->
  exists b, vcompare_neighbourhood v w eps = Ret b /\ (b = true <-> (Rabs (f 0%nat 0%nat - g 0%nat 0%nat) <= eps)%R).
Proof.
  intros v w eps n f g Hv Hw Hn. eexists. split; [eapply compare_row; eassumption|]. rewrite negb_true_iff, fabs_R. apply R_ltb_false.
Qed.
Print Assumptions C89_compare_row.
Theorem C89_compare_row_refuted : exists v w : vector R, is_mat v 1 2 (fun _ _ => 0%R) /\ is_mat w 1 2 (fun _ j => INR j) /\
  vcompare_neighbourhood v w (1 / 2)%R = Ret true.
Proof.
  exists (mkMatrix 1 2 [0; 0]%R), (mkMatrix 1 2 [0; 1]%R).
  assert (Hv : is_mat (mkMatrix 1 2 [0; 0]%R) 1 2 (fun _ _ => 0%R)).
  { apply is_mat_intro; cbn; auto. intros [|[|]] [|[|]] Hi Hj; try lia; reflexivity. }
  assert (Hw : is_mat (mkMatrix 1 2 [0; 1]%R) 1 2 (fun _ j => INR j)).
  { apply is_mat_intro; cbn; auto. intros [|[|]] [|[|]] Hi Hj; try lia; reflexivity. }
  split; [exact Hv|]. split; [exact Hw|].
  destruct (C89_compare_row _ _ (1 / 2)%R _ _ _ Hv Hw ltac:(lia)) as (b & -> & H). f_equal. apply H. cbn. rewrite Rminus_0_r, Rabs_R0. lra.
Qed.
Print Assumptions C89_compare_row_refuted.
(** The larger of two numbers. *)
Theorem C89_max : forall a b : R, tmax a b = Rmax a b.
Proof. intros a b. unfold tmax. cbn [leb R_ops]. unfold R_leb, Rmax. destruct (Rle_dec b a), (Rle_dec a b); lra. Qed.
Print Assumptions C89_max.
Example C89_example : next_calls elem_next 7 (minto_iter (mkMatrix 2 3 [1; 2; 3; 4; 5; 6]%nat)) =
  Ret [Some 1; Some 2; Some 3; Some 4; Some 5; Some 6; None]%nat.
Proof. reflexivity. Qed.

(** * C38: comparison macros *)

(** abs_diff_eq!(a, b, epsilon = e, ...) compares with the last epsilon given, the default one without options. *)
Theorem C38_abs_diff_macro : forall (a b eps0 : R) opts,
  (abs_diff_eq_macro eps0 a b opts = true <-> (Rabs (a - b) <= last opts eps0)%R) /\
  abs_diff_ne_macro eps0 a b opts = negb (abs_diff_eq_macro eps0 a b opts).
Proof.
  intros a b eps0 opts. unfold abs_diff_ne_macro, abs_diff_eq_macro. rewrite ad_fold. split; [apply sabs_R|reflexivity].
Qed.
Print Assumptions C38_abs_diff_macro.
Theorem C38_relative_macro : forall (a b eps0 r0 : R) opts,
  (relative_eq_macro eps0 r0 a b opts = true <->
    (a = b \/ Rabs (a - b) <= last_epsilon eps0 opts \/ Rabs (a - b) <= Rmax (Rabs a) (Rabs b) * last_max_relative r0 opts)%R) /\
  relative_ne_macro eps0 r0 a b opts = negb (relative_eq_macro eps0 r0 a b opts).
Proof.
  intros a b eps0 r0 opts. unfold relative_ne_macro, relative_eq_macro. rewrite rel_fold. split; [apply srel_R|reflexivity].
Qed.
Print Assumptions C38_relative_macro.
(** The assertions return exactly if the comparison holds and panic otherwise. *)
Theorem C38_assertions : forall c : bool, (assert_approx c = Ret tt <-> c = true) /\ (assert_approx c = Panic <-> c = false).
Proof. intros []; cbn; repeat split; congruence. Qed.
Print Assumptions C38_assertions.
Example C38_macro_example : relative_eq_macro 0%R 0%R 1%R 2%R [OptEpsilon 5%R; OptMaxRelative (1 / 2)%R; OptEpsilon 0%R] = true /\
  relative_eq_macro 0%R 0%R 1%R 2%R [OptMaxRelative (1 / 2)%R; OptEpsilon 5%R; OptMaxRelative 0%R; OptEpsilon (1 / 4)%R] = false.
Proof.
  split; [apply C38_relative_macro|apply not_true_is_false; rewrite (proj1 (C38_relative_macro _ _ _ _ _))]; unfold last_epsilon, last_max_relative; cbn;
    rewrite Rabs_left, Rmax_right; rewrite ?Rabs_pos_eq; lra.
Qed.
