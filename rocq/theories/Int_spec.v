(** Specifications used by the theorems on integers and conversions. *)
From Coq Require Import ZArith Reals.
From Verif Require Import Int_model.
Local Open Scope Z_scope.

(** z is a value of the integer type t: -2^(w-1) <= z < 2^(w-1) or 0 <= z < 2^w. *)
Definition in_ity (t : ity) (z : Z) : Prop :=
  if isigned t then - 2 ^ (iwidth t - 1) <= z < 2 ^ (iwidth t - 1) else 0 <= z < 2 ^ iwidth t.

(** q is v rounded towards zero. *)
Definition is_trunc (v : R) (q : Z) : Prop := (Rabs (IZR q) <= Rabs v < Rabs (IZR q) + 1)%R /\ (0 <= v * IZR q)%R.
