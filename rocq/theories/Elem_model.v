(** Model of the elementary functions of the primitive floats:
    src/elementary/*.rs (traits) and src/num/primitives/mod.rs:258-673 (f32, f64).
    Definitions only. *)
From Coq Require Import Reals Bool.
From Verif Require Import Outcome Scalar RealOps.
Local Open Scope sc_scope.

(** The functions of Rust's f32/f64 the crate calls directly (libm); no laws. *)
Class EOps (T : Type) := {
  texp : T -> T; tln : T -> T;
  tsin : T -> T; tcos : T -> T; ttan : T -> T;
  tasin : T -> T; tacos : T -> T; tatan : T -> T; tatan2 : T -> T -> T;
  tsinh : T -> T; tcosh : T -> T; ttanh : T -> T;
  tasinh : T -> T; tacosh : T -> T; tatanh : T -> T;
  tpi : T; te : T
}.

(** atan2(y, x) over the reals, with the branch cut along the negative x axis (y = +0). *)
Definition R_atan2 (y x : R) : R :=
  if Rlt_dec 0 x then atan (y / x)
  else if Rlt_dec x 0 then (if Rle_dec 0 y then atan (y / x) + PI else atan (y / x) - PI)%R
  else if Rlt_dec 0 y then (PI / 2)%R
  else if Rlt_dec y 0 then (- (PI / 2))%R
  else 0%R.

(** Exact real functions.  Outside their domains (where the float functions return NaN or an
    infinity) these return some real number, so theorems exclude such arguments by hypothesis. *)
#[global] Instance R_eops : EOps R := {
  texp := exp; tln := ln; tsin := sin; tcos := cos; ttan := tan;
  tasin := asin; tacos := acos; tatan := atan; tatan2 := R_atan2;
  tsinh := sinh; tcosh := cosh; ttanh := tanh;
  tasinh := fun x => ln (x + sqrt (x * x + 1));
  tacosh := fun x => ln (x + sqrt (x * x - 1));
  tatanh := fun x => (ln ((1 + x) / (1 - x)) / 2)%R;
  tpi := PI; te := exp 1
}.

Section Model.
Context {T : Type} {O : Ops T} {P : POps T} {E : EOps T}.

(** src/num/primitives/mod.rs:427-430 [root]. *)
Definition eroot (x root : T) : T := tpow x (1 / root).

(** src/num/primitives/mod.rs:287-305 [cot], [sec], [csc]. *)
Definition ecot (x : T) : T := 1 / ttan x.
(** src/num/primitives/mod.rs:287-305 [sec]. *)
Definition esec (x : T) : T := 1 / tcos x.
(** src/num/primitives/mod.rs:287-305 [csc]. *)
Definition ecsc (x : T) : T := 1 / tsin x.

(** src/num/primitives/mod.rs:316-343 [arcsin], [arccos]. *)
Definition earcsin (x : T) : outcome T := if ltb 1 (tabs x) then Panic else Ret (tasin x).
(** src/num/primitives/mod.rs:316-343 [arccos]. *)
Definition earccos (x : T) : outcome T := if ltb 1 (tabs x) then Panic else Ret (tacos x).
(** src/num/primitives/mod.rs:346-355 [arctan], [arctan2]. *)
Definition earctan (x : T) : T := tatan x.
(** src/num/primitives/mod.rs:346-355 [arctan2]. *)
Definition earctan2 (y x : T) : T := tatan2 y x.
(** src/num/primitives/mod.rs:357-372 [arccot]: both branches for a non-zero argument are the same. *)
Definition earccot (x : T) : T :=
  if eqb x 0 then 0 else if ltb 0 x then tatan (1 / x) else tatan (1 / x).
(** src/num/primitives/mod.rs:374-382 [arcsec], [arccsc]. *)
Definition earcsec (x : T) : T := tacos (1 / x).
(** src/num/primitives/mod.rs:374-382 [arccsc]. *)
Definition earccsc (x : T) : T := tasin (1 / x).

(** src/num/primitives/mod.rs:498-506 [coth]. *)
Definition ecoth (x : T) : outcome T := if eqb x 0 then Panic else Ret (tcosh x / tsinh x).
(** src/num/primitives/mod.rs:523-526 [sech]. *)
Definition esech (x : T) : T := 1 / tcosh x.
(** src/num/primitives/mod.rs:548-555 [csch]. *)
Definition ecsch (x : T) : outcome T := if eqb x 0 then Panic else Ret (1 / tsinh x).
(** src/num/primitives/mod.rs:558-567 [arsinh], [arcosh]. *)
Definition earsinh (x : T) : T := tasinh x.
(** src/num/primitives/mod.rs:558-567 [arcosh]. *)
Definition earcosh (x : T) : T := tacosh x.
(** src/num/primitives/mod.rs:570-578 [artanh]. *)
Definition eartanh (x : T) : outcome T :=
  if leb x (neg one) || leb 1 x then Panic else Ret (tatanh x).
(** src/num/primitives/mod.rs:601-609 [arcoth]. *)
Definition earcoth (x : T) : outcome T :=
  if leb (neg one) x && leb x 1 then Panic else Ret (tln ((x + 1) / (x - 1)) / two).
(** src/num/primitives/mod.rs:630-638 [arsech]. *)
Definition earsech (x : T) : outcome T :=
  if leb x 0 || ltb 1 x then Panic else Ret (tacosh (1 / x)).
(** src/num/primitives/mod.rs:661-664 [arcsch]. *)
Definition earcsch (x : T) : T := tasinh (1 / x).

End Model.
