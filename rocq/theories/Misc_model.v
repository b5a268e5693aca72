(** Printing, random matrices, element iteration, comparison macros and small vector functions.
    Definitions only.

    Text is a list of characters.  [show] stands for the [Display] implementation of the element
    type; writing to the formatter is assumed not to fail. *)
From Coq Require Import Ascii String Decimal DecimalString Arith List Bool.
From Verif Require Import Outcome Scalar Matrix_model Vector_model Int_model Complex_model Approx_model Poly_model.
Import ListNotations.

(** ** Display *)

(** Characters written by [write!(f, ...)] (all of them go through the same formatter). *)
Definition text := list ascii.
(** String literals in the format strings. *)
Definition lits (s : string) : text := list_ascii_of_string s.
(** [write!(f, "{}", i)] of a usize: decimal digits (src/algebra/abstr/polynomial.rs:132, 136). *)
Definition show_usize (i : nat) : text := lits (NilZero.string_of_uint (Nat.to_uint i)).

Section Display.
Context {T : Type} {O : Ops T}.
Context (show : T -> text).

(** src/algebra/abstr/polynomial.rs:124-155: one iteration of the loop; the state is [only_zero_terms] and what was
    written so far. *)
Definition pfmt_step (eps : T) (st : bool * text) (ia : nat * T) : bool * text :=
  let '(only_zero_terms, out) := st in
  let '(i, a) := ia in
  if sabs_diff_ne a 0%sc eps then
    (false,
     if 1 <? i then
       if only_zero_terms then out ++ show a ++ lits "x^" ++ show_usize i
       else out ++ lits " + " ++ show a ++ lits "x^" ++ show_usize i
     else if i =? 0 then out ++ show a
     else if only_zero_terms then out ++ show a ++ lits "x"
     else out ++ lits " + " ++ show a ++ lits "x")
  else (only_zero_terms, out).

(** src/algebra/abstr/polynomial.rs:120-158 [fmt]; [eps] is [T::default_epsilon()]. *)
Definition pfmt (eps : T) (p : poly T) : text :=
  snd (fold_left (pfmt_step eps) (combine (seq 0 (length p)) p) (true, [])).

(** src/algebra/linear/matrix/matrix.rs:798-810 [fmt]; also Display of vectors, src/algebra/linear/vector/vector.rs:706-709. *)
Definition mfmt (A : matrix T) : outcome text :=
  let! out := for_loop 0 (rows A) (fun i out =>
    let! out := for_loop 0 (cols A) (fun j out =>
      let! a := mget A i j in
      Ret (out ++ show a ++ lits " ")) out in
    Ret (out ++ [ascii_of_nat 10])) [ascii_of_nat 10] in
  Ret (out ++ [ascii_of_nat 10]).

(** src/num/complex.rs:433-436 [fmt]. *)
Definition cfmt (z : cplx T) : text := show (re z) ++ lits " + " ++ show (im z) ++ lits "i".
End Display.

(** ** Random matrices and vectors *)

Section Random.
Context {T S : Type} (gen : S -> T * S).

(** src/algebra/linear/matrix/matrix.rs:927-932 [new_random]: [gen] is [T::from_f64(rng.gen())] with the state of the
    generator made explicit; [vec![e; k]] evaluates [e] once and clones the value. *)
Definition mnew_random (s : S) (m n : nat) : outcome (matrix T * S) :=
  let (x, s') := gen s in
  let! A := mnew m n (repeat x (m * n)) in
  Ret (A, s').
(** src/algebra/linear/vector/vector.rs:246-249 [new_row_random]. *)
Definition vnew_row_random (s : S) (n : nat) : outcome (vector T * S) := mnew_random s 1 n.
(** src/algebra/linear/vector/vector.rs:260-263 [new_column_random]. *)
Definition vnew_column_random (s : S) (m : nat) : outcome (vector T * S) := mnew_random s m 1.

(** src/statistics/distrib/distrib.rs:9-15 [random_sequence]: [gen] is [self.random()]. *)
Fixpoint random_sequence (s : S) (size : nat) : list T * S :=
  match size with
  | 0%nat => ([], s)
  | Datatypes.S k =>
      let (x, s1) := gen s in
      let (l, s2) := random_sequence s1 k in
      (x :: l, s2)
  end.
End Random.

(** ** Element iteration *)

(** src/algebra/linear/matrix/matrix.rs:94-97 [into_iter] and src/algebra/linear/matrix/matrixintoiterator.rs:13-16,
    src/algebra/linear/vector/vector.rs:81-84 and src/algebra/linear/vector/vectorintoiterator.rs:24-27,
    src/algebra/linear/vector/vector.rs:96-99 [iter] and src/algebra/linear/vector/vectoriterator.rs:23-26: [next] on what is
    left of the storage. *)
Definition elem_next {T} (rest : list T) : outcome (option T * list T) :=
  match rest with
  | [] => Ret (None, [])
  | x :: r => Ret (Some x, r)
  end.
(** src/algebra/linear/matrix/matrix.rs:94-97 [into_iter]: the initial state. *)
Definition minto_iter {T} (A : matrix T) : list T := data A.

(** src/algebra/linear/matrix/matrix.rs:107-110 [iter_mut], src/algebra/linear/matrix/matrixiteratormut.rs:20-23,
    src/algebra/linear/vector/vector.rs:101-104 and src/algebra/linear/vector/vectoriteratormut.rs:23-26: the loop
    [for x in a.iter_mut()] that replaces each element by a value computed from it, whose body also carries a state. *)
Fixpoint iter_mut_loop {T S} (body : S -> T -> T * S) (s : S) (l : list T) : list T * S :=
  match l with
  | [] => ([], s)
  | x :: r =>
      let (y, s1) := body s x in
      let (r', s2) := iter_mut_loop body s1 r in
      (y :: r', s2)
  end.
(** src/algebra/linear/matrix/matrix.rs:107-110. *)
Definition miter_mut {T S} (body : S -> T -> T * S) (s : S) (A : matrix T) : matrix T * S :=
  let (d, s') := iter_mut_loop body s (data A) in (mkMatrix (rows A) (cols A) d, s').

(** src/algebra/linear/matrix/matrix.rs:919-922, src/algebra/linear/vector/vector.rs:159-162 [convert_to_vec]. *)
Definition mconvert_to_vec {T} (A : matrix T) : list T := data A.
(** src/algebra/linear/matrix/matrix.rs:81-86 [From<Vector>::from]. *)
Definition mfrom_vector {T} (v : vector T) : outcome (matrix T) :=
  let (m, n) := dim v in mnew m n (mconvert_to_vec v).

Section Small.
Context {T : Type} {O : Ops T} {I : InfOps T}.
Local Open Scope sc_scope.

(** src/algebra/linear/vector/vector.rs:715-718 [sign]. *)
Definition vsign (v : vector T) : vector T := vapply fsign v.
(** src/algebra/linear/vector/vector.rs:720-723 [abs]; the element's [Sign::abs]. *)
Definition vabs (v : vector T) : vector T := vapply fabs v.

(** src/algebra/linear/vector/vector.rs:739-762 [compare_neighbourhood]: the loop [for i in 0..self_m]; [k] iterations
    are left.  The [println!] calls are not modelled. *)
Fixpoint cmp_loop (v w : vector T) (eps : T) (k i : nat) : outcome bool :=
  match k with
  | 0%nat => Ret true
  | S k' =>
      let! a := vvget v i in
      let! b := vvget w i in
      if ltb eps (fabs (a - b)) then Ret false else cmp_loop v w eps k' (S i)
  end.
(** src/algebra/linear/vector/vector.rs:739-762. *)
Definition vcompare_neighbourhood (v w : vector T) (eps : T) : outcome bool :=
  let (m, n) := dim v in
  let (m', n') := dim w in
  if (negb (m =? m') || negb (n =? n'))%nat then Ret false
  else cmp_loop v w eps m 0.

(** src/algebra/abstr/real.rs:71-81 [Real::max]. *)
Definition tmax (a b : T) : T := if leb b a then a else b.

(** ** Comparison macros *)

(** src/algebra/abstr/abs_diff_eq.rs:17-25, 32-36 [AbsDiff::default]; [eps0] is [default_epsilon()]. *)
Record abs_diff := mkAbsDiff { ad_eps : T }.
(** src/algebra/abstr/abs_diff_eq.rs:45-47 [epsilon]. *)
Definition ad_epsilon (_ : abs_diff) (e : T) : abs_diff := mkAbsDiff e.
(** src/algebra/abstr/abs_diff_eq.rs:50-53 [eq]. *)
Definition ad_eq (s : abs_diff) (a b : T) : bool := sabs_diff_eq a b (ad_eps s).
(** src/algebra/abstr/abs_diff_eq.rs:56-59 [ne]. *)
Definition ad_ne (s : abs_diff) (a b : T) : bool := sabs_diff_ne a b (ad_eps s).
(** src/algebra/abstr/abs_diff_eq.rs:148-157 [abs_diff_eq!(a, b, epsilon = e, ...)]; [opts] are the values given. *)
Definition abs_diff_eq_macro (eps0 a b : T) (opts : list T) : bool := ad_eq (fold_left ad_epsilon opts (mkAbsDiff eps0)) a b.
(** src/algebra/abstr/abs_diff_eq.rs:161-168 [abs_diff_ne!]. *)
Definition abs_diff_ne_macro (eps0 a b : T) (opts : list T) : bool := ad_ne (fold_left ad_epsilon opts (mkAbsDiff eps0)) a b.
(** src/algebra/abstr/abs_diff_eq.rs:170-228 and src/algebra/abstr/relative_eq.rs:183-202: the assertions panic when the macro is false. *)
Definition assert_approx (b : bool) : outcome unit := if b then Ret tt else Panic.

(** src/algebra/abstr/relative_eq.rs:21-30, 37-43 [Relative::default]. *)
Record relative := mkRelative { rel_eps : T; rel_max : T }.
(** An option of the macro: [epsilon = e] or [max_relative = r]. *)
Inductive rel_opt := OptEpsilon (e : T) | OptMaxRelative (r : T).
(** src/algebra/abstr/relative_eq.rs:52-55 [epsilon], 58-64 [max_relative]. *)
Definition rel_set (s : relative) (o : rel_opt) : relative :=
  match o with
  | OptEpsilon e => mkRelative e (rel_max s)
  | OptMaxRelative r => mkRelative (rel_eps s) r
  end.
(** src/algebra/abstr/relative_eq.rs:67-70 [eq]. *)
Definition rel_eq (s : relative) (a b : T) : bool := srelative_eq a b (rel_eps s) (rel_max s).
(** src/algebra/abstr/relative_eq.rs:73-76 [ne]. *)
Definition rel_ne (s : relative) (a b : T) : bool := srelative_ne a b (rel_eps s) (rel_max s).
(** src/algebra/abstr/relative_eq.rs:161-170 [relative_eq!]. *)
Definition relative_eq_macro (eps0 max0 a b : T) (opts : list rel_opt) : bool := rel_eq (fold_left rel_set opts (mkRelative eps0 max0)) a b.
(** src/algebra/abstr/relative_eq.rs:172-181 [relative_ne!]. *)
Definition relative_ne_macro (eps0 max0 a b : T) (opts : list rel_opt) : bool := rel_ne (fold_left rel_set opts (mkRelative eps0 max0)) a b.
End Small.
