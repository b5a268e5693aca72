(** The single-precision floats: IEEE-754 binary32 arithmetic as stdlib [SpecFloat]; definitions only.
    None of these is a global instance, because [f32] and [f64] unfold to the same type: the files about
    single precision declare them locally. *)
From Coq Require Import ZArith SpecFloat.
From Verif Require Import Scalar RealOps Int_model Special_model.

(** Rust's [f32] (src/algebra/abstr/field.rs:25, src/algebra/abstr/scalar.rs:42-43, src/algebra/abstr/real.rs:46). *)
Definition f32 := spec_float.
(** The operators of [f32], rounded to nearest even: src/algebra/abstr/magma.rs:38-79, src/algebra/abstr/group.rs:37-78,
    src/algebra/abstr/sign.rs:66. *)
Definition F32_ops : Ops f32 := {|
  zero := S754_zero false;
  one := S754_finite false 8388608 (-23);
  add := SFadd 24 128; sub := SFsub 24 128; mul := SFmul 24 128;
  div := SFdiv 24 128; neg := SFopp; eqb := SFeqb; ltb := SFltb; leb := SFleb;
  tabs := SFabs |}.
(** [n as f32]: src/num/primitives/mod.rs:70-79, 155-164; round to nearest, ties to even. *)
Definition int_as_f32 (z : Z) : f32 := binary_normalize 24 128 z 0 false.
(** [sqrt] and [pow] of [f32] through [powf]: src/num/primitives/mod.rs:417-440; [powf] is a parameter. *)
Definition F32_pops (pw : f32 -> f32 -> f32) : POps f32 :=
  {| tsqrt := fun x => pw x (S754_finite false 8388608 (-24)); tpow := pw;
     two := S754_finite false 8388608 (-22); half := S754_finite false 8388608 (-24) |}.
(** Rounding towards plus infinity (std [f32::ceil], src/algebra/abstr/real.rs:10-14). *)
Definition F32_ceil (x : f32) : f32 :=
  match x with
  | S754_finite s m e =>
      if (0 <=? e)%Z then x
      else let q := (Zpos m / 2 ^ (- e))%Z in
           let ex := (Zpos m mod 2 ^ (- e) =? 0)%Z in
           int_as_f32 (if s then - q else if ex then q else q + 1)%Z
  | _ => x
  end.
(** Conversions of [f32]: src/num/primitives/mod.rs:190-256; floor(x) = - ceil(-x). *)
Definition F32_zops : ZOps f32 := {|
  of_int := int_as_f32;
  as_u32 := float_as_int u32;
  as_i32 := float_as_int i32;
  tfloor := fun x => SFopp (F32_ceil (SFopp x)) |}.
