(** Model of the scalar traits of the fixed-width integers and of the numeric conversions:
    src/algebra/abstr/sign.rs, src/algebra/abstr/abs_diff_eq.rs (integers),
    src/algebra/abstr/cast.rs and src/num/primitives/mod.rs:12-256, 672-730.  Definitions only.

    An integer type is a signedness and a width in bits; its values are the integers in its range.
    Arithmetic overflow is a panic (overflow checks on). *)
From Coq Require Import ZArith Bool SpecFloat.
From Verif Require Import Outcome Scalar.
Local Open Scope Z_scope.

(** Rust's integer types by signedness and width. *)
Record ity := mkIty { isigned : bool; iwidth : Z }.
(** The types the macros of src/algebra/abstr/sign.rs:64 and src/num/primitives/mod.rs are instantiated at. *)
Definition i8 := mkIty true 8.   Definition u8 := mkIty false 8.
(** More integer types. *)
Definition i16 := mkIty true 16. Definition u16 := mkIty false 16.
(** More integer types. *)
Definition i32 := mkIty true 32. Definition u32 := mkIty false 32.
(** More integer types. *)
Definition i64 := mkIty true 64. Definition u64 := mkIty false 64.
(** More integer types. *)
Definition i128 := mkIty true 128. Definition u128 := mkIty false 128.

(** Smallest value of a type. *)
Definition imin (t : ity) : Z := if isigned t then - 2 ^ (iwidth t - 1) else 0.
(** Largest value of a type. *)
Definition imax (t : ity) : Z := if isigned t then 2 ^ (iwidth t - 1) - 1 else 2 ^ iwidth t - 1.
(** The result of a checked operation: out of range panics. *)
Definition ichk (t : ity) (z : Z) : outcome Z :=
  if (imin t <=? z) && (z <=? imax t) then Ret z else Panic.

(** src/algebra/abstr/sign.rs:31-39 [sign], instantiated at 64. *)
Definition isign (n : Z) : Z := if n >? 0 then 1 else if (n >=? 0) && (n <=? 0) then 0 else -1.
(** src/algebra/abstr/sign.rs:50-58. *)
Definition iis_positive (n : Z) : bool := n >? 0.
(** src/algebra/abstr/sign.rs:55-58 [is_negative]. *)
Definition iis_negative (n : Z) : bool := n <? 0.
(** src/algebra/abstr/sign.rs:41-48 [abs]. *)
Definition iabs (t : ity) (n : Z) : outcome Z := if iis_negative n then ichk t (- n) else Ret n.

(** The float instance, src/algebra/abstr/sign.rs:66 ([abs] shadows nothing: f64's own abs is used elsewhere). *)
Section Float.
Context {T : Type} {O : Ops T}.
(** src/algebra/abstr/sign.rs:31-39 [sign] at 66. *)
Definition fsign (x : T) : T :=
  if ltb zero x then one else if leb zero x && leb x zero then zero else neg one.
(** src/algebra/abstr/sign.rs:50-53 [is_positive]. *)
Definition fis_positive (x : T) : bool := ltb zero x.
(** src/algebra/abstr/sign.rs:55-58 [is_negative]. *)
Definition fis_negative (x : T) : bool := ltb x zero.
(** src/algebra/abstr/sign.rs:41-48 [abs]. *)
Definition fabs (x : T) : T := if fis_negative x then neg x else x.
End Float.

(** src/algebra/abstr/abs_diff_eq.rs:99-106 (unsigned). *)
Definition uabs_diff_eq (t : ity) (a b eps : Z) : outcome bool :=
  let! d := (if a >? b then ichk t (a - b) else ichk t (b - a)) in Ret (d <=? eps).
(** src/algebra/abstr/abs_diff_eq.rs:131-134 (signed): [self - other] and the built-in [abs] both check overflow. *)
Definition sint_abs (t : ity) (n : Z) : outcome Z := if n <? 0 then ichk t (- n) else Ret n.
(** src/algebra/abstr/abs_diff_eq.rs:131-134. *)
Definition iabs_diff_eq (t : ity) (a b eps : Z) : outcome bool :=
  let! d := ichk t (a - b) in let! m := sint_abs t d in Ret (m <=? eps).

(** [x as t] between integer types: src/num/primitives/mod.rs:12-20, 92-102. *)
Definition as_int (t : ity) (z : Z) : Z :=
  let r := z mod 2 ^ iwidth t in
  if isigned t && (2 ^ (iwidth t - 1) <=? r) then r - 2 ^ iwidth t else r.
(** src/algebra/abstr/cast.rs:9-48 default methods: via 64 bits. *)
Definition to_via64 (t : ity) (z : Z) : Z :=
  as_int t (as_int (if isigned t then i64 else u64) z).

(** [x as t] from a float: src/num/primitives/mod.rs:165-256. *)
Definition clamp (t : ity) (z : Z) : Z := Z.max (imin t) (Z.min (imax t) z).
(** [x as t] from a float: src/num/primitives/mod.rs:165-256. *)
Definition float_as_int (t : ity) (x : f64) : Z :=
  match x with
  | S754_nan => 0
  | S754_infinity s => if s then imin t else imax t
  | S754_zero _ => 0
  | S754_finite s m e =>
      let a := if 0 <=? e then Zpos m * 2 ^ e else Zpos m / 2 ^ (- e) in
      clamp t (if s then - a else a)
  end.
(** [n as f64]: round to nearest, ties to even. *)
Definition int_as_f64 (z : Z) : f64 := binary_normalize 53 1024 z 0 false.
