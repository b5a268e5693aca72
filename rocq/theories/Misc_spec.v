(** Specification vocabulary for printed text. *)
From Coq Require Import Ascii String Arith List Bool.
From Verif Require Import Outcome Scalar Matrix_model Poly_model Approx_model Misc_model.
Import ListNotations.

(** The pieces of l with sep between them. *)
Fixpoint join (sep : text) (l : list text) : text :=
  match l with
  | [] => []
  | [x] => x
  | x :: r => x ++ sep ++ join sep r
  end.

(** The exponents and coefficients of p that are not within eps of zero, lowest exponent first. *)
Definition terms {T} {O : Ops T} (eps : T) (p : poly T) : list (nat * T) :=
  filter (fun ia => sabs_diff_ne (snd ia) zero eps) (combine (seq 0 (length p)) p).

(** How the power x^i is written. *)
Definition power_text (i : nat) : text :=
  match i with
  | 0 => []
  | 1 => lits "x"
  | _ => lits "x^" ++ show_usize i
  end.

(** The element type prints different values differently, never as the empty text and without blanks, line
    feeds and the letter x. *)
Definition plain {T} (show : T -> text) : Prop :=
  (forall a b, show a = show b -> a = b) /\ (forall a, show a <> []) /\
  (forall a, ~ In " "%char (show a) /\ ~ In "x"%char (show a) /\ ~ In (ascii_of_nat 10) (show a)).

(** One printed row: every element followed by a blank, then a line feed. *)
Definition row_text {T} (show : T -> text) (row : list T) : text := flat_map (fun a => show a ++ lits " ") row ++ [ascii_of_nat 10].

(** The state of the generator after k draws. *)
Fixpoint gen_state {T S} (gen : S -> T * S) (k : nat) (s : S) : S :=
  match k with
  | 0 => s
  | Datatypes.S k' => gen_state gen k' (snd (gen s))
  end.

(** The last value given for a tolerance in a macro call, or its default. *)
Definition last_epsilon {T} (d : T) (opts : list (@rel_opt T)) : T :=
  last (flat_map (fun o => match o with OptEpsilon e => [e] | OptMaxRelative _ => [] end) opts) d.
Definition last_max_relative {T} (d : T) (opts : list (@rel_opt T)) : T :=
  last (flat_map (fun o => match o with OptEpsilon _ => [] | OptMaxRelative r => [r] end) opts) d.
