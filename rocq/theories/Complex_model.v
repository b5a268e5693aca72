(** Model of complex numbers: src/num/complex.rs.  Definitions only.

    Not modelled: [Display] (430-437), lapack/blas stubs (129-353, not compiled without the feature)
    and the functions whose body is [unimplemented!()]: sign, is_positive, is_negative, arctan2,
    root, sqrt, from_i64, from_i128, default_epsilon, abs_diff_eq. *)
From Coq Require Import Reals Bool.
From Verif Require Import Outcome Scalar RealOps Elem_model.
Local Open Scope sc_scope.

(** src/num/complex.rs:51-68. *)
Record cplx (T : Type) := mkC { re : T; im : T }.
Arguments mkC {T} _ _.
Arguments re {T} _.
Arguments im {T} _.

Section Model.
Context {T : Type} {O : Ops T}.

(** src/num/complex.rs:440-446, 484-490, 1246-1261 [zero], [one], [id]. *)
Definition czero : cplx T := mkC 0 0.
(** src/num/complex.rs:484-490 [one]. *)
Definition cone : cplx T := mkC 1 0.
(** src/num/complex.rs:71-80 [neg]. *)
Definition cneg (z : cplx T) : cplx T := mkC (- re z) (- im z).
(** src/num/complex.rs:99-103 [conj]. *)
Definition cconj (z : cplx T) : cplx T := mkC (re z) (- im z).
(** src/num/complex.rs:418-428 [eq]. *)
Definition ceqb (z w : cplx T) : bool := eqb (re z) (re w) && eqb (im z) (im w).
(** src/num/complex.rs:87-93 [partial_cmp]: only the real parts are compared ([<] and [<=]). *)
Definition cltb (z w : cplx T) : bool := ltb (re z) (re w).
(** src/num/complex.rs:87-93: [<=]. *)
Definition cleb (z w : cplx T) : bool := leb (re z) (re w).
(** src/num/complex.rs:451-481, 1263-1269 [add], [add_assign], [operate]. *)
Definition cadd (z w : cplx T) : cplx T := mkC (re z + re w) (im z + im w).
(** src/num/complex.rs:533-562 [sub], [sub_assign]. *)
Definition csub (z w : cplx T) : cplx T := mkC (re z - re w) (im z - im w).
(** src/num/complex.rs:495-528 [mul], [mul_assign]. *)
Definition cmul (z w : cplx T) : cplx T :=
  mkC (re z * re w - im z * im w) (im z * re w + re z * im w).
(** src/num/complex.rs:1291-1298 [Magma<Multiplication>::operate]. *)
Definition coperate_mul (z w : cplx T) : cplx T :=
  mkC (re z * re w - im z * im w) (re z * im w + im z * re w).
(** src/num/complex.rs:565-599 [div], [div_assign]. *)
Definition cdiv (z w : cplx T) : outcome (cplx T) :=
  let divisor := re w * re w + im w * im w in
  if eqb divisor 0 then Panic
  else
    let quot := cmul z (mkC (re w) (- im w)) in
    Ret (mkC (re quot / divisor) (im quot / divisor)).

Context {P : POps T} {E : EOps T}.

(** src/num/complex.rs:389-394 [abs]. *)
Definition cabs (z : cplx T) : cplx T := mkC (eroot (re z * re z + im z * im z) two) 0.
(** src/num/complex.rs:106-110 [arg]. *)
Definition carg (z : cplx T) : cplx T := mkC (tatan2 (im z) (re z)) 0.

(** src/num/complex.rs:665-670 [exp]. *)
Definition cexp (z : cplx T) : cplx T :=
  let k := texp (re z) in mkC (k * tcos (im z)) (k * tsin (im z)).
(** src/num/complex.rs:684-688 [ln]. *)
Definition cln (z : cplx T) : cplx T := mkC (tln (re (cabs z))) (re (carg z)).

(** src/num/complex.rs:718-752 [sin], [cos]. *)
Definition csin (z : cplx T) : outcome (cplx T) :=
  let a := mkC (- im z) (re z) in
  let b := mkC (im z) (- re z) in
  let c := mkC 0 (1 + 1) in
  cdiv (csub (cexp a) (cexp b)) c.
(** src/num/complex.rs:745-752 [cos]. *)
Definition ccos (z : cplx T) : outcome (cplx T) :=
  let a := mkC (- im z) (re z) in
  let b := mkC (im z) (- re z) in
  let c := mkC (1 + 1) 0 in
  cdiv (cadd (cexp a) (cexp b)) c.
(** src/num/complex.rs:779-842 [tan], [cot], [sec], [csc]. *)
Definition ctan (z : cplx T) : outcome (cplx T) :=
  let! s := csin z in let! c := ccos z in cdiv s c.
(** src/num/complex.rs:799-802 [cot]. *)
Definition ccot (z : cplx T) : outcome (cplx T) := let! t := ctan z in cdiv cone t.
(** src/num/complex.rs:819-822 [sec]. *)
Definition csec (z : cplx T) : outcome (cplx T) := let! c := ccos z in cdiv cone c.
(** src/num/complex.rs:839-842 [csc]. *)
Definition ccsc (z : cplx T) : outcome (cplx T) := let! s := csin z in cdiv cone s.

(** src/num/complex.rs:1074-1083 [pow]. *)
Definition cpow (z w : cplx T) : cplx T :=
  let r := re (cabs z) in
  let phi := re (carg z) in
  let k := tpow r (re w) * texp (- im w * phi) in
  let theta := tln r * im w + re w * phi in
  mkC (k * tcos theta) (k * tsin theta).

(** src/num/complex.rs:861-868 [arcsin]. *)
Definition carcsin (z : cplx T) : cplx T :=
  let mi := mkC 0 (neg one) in
  let iz := mkC (- im z) (re z) in
  let e := mkC (1 / (1 + 1)) 0 in
  cmul mi (cln (cadd iz (cpow (csub cone (cmul z z)) e))).
(** src/num/complex.rs:886-889 [arccos]. *)
Definition carccos (z : cplx T) : cplx T :=
  csub (mkC (tpi / (1 + 1)) 0) (carcsin z).
(** src/num/complex.rs:912-963 [arctan]; the real [artanh] may panic. *)
Definition carctan (z : cplx T) : outcome (cplx T) :=
  let two := 1 + 1 in
  let rr :=
    if eqb (re z) 0
    then if leb (tabs (im z)) 1 then 0
         else if ltb 0 (im z) then tpi / two else - tpi / two
    else if ltb 0 (re z)
         then (tatan ((re z * re z + im z * im z - 1) / (two * re z)) + tpi / two) / two
         else (tatan ((re z * re z + im z * im z - 1) / (two * re z)) - tpi / two) / two in
  let! h := eartanh ((two * im z) / (re z * re z + im z * im z + 1)) in
  Ret (mkC rr (h / two)).
(** src/num/complex.rs:990-1000 [arccot]. *)
Definition carccot (z : cplx T) : outcome (cplx T) :=
  if eqb (re z) 0 && (eqb (im z) 1 || eqb (im z) (neg one)) then Panic
  else let! w := cdiv cone z in carctan w.
(** src/num/complex.rs:1022-1033 [arcsec]. *)
Definition carcsec (z : cplx T) : outcome (cplx T) :=
  if eqb (im z) 0 && (eqb (re z) (neg one) || eqb (re z) 0 || eqb (re z) 1) then Panic
  else let! w := cdiv cone z in Ret (carccos w).
(** src/num/complex.rs:1053-1056 [arccsc]. *)
Definition carccsc (z : cplx T) : outcome (cplx T) :=
  let! w := cdiv cone z in Ret (carcsin w).

(** src/num/complex.rs:1099-1120 [sinh], [cosh], [tanh], [coth]. *)
Definition csinh (z : cplx T) : outcome (cplx T) :=
  let! s := csin (mkC (- im z) (re z)) in Ret (cmul (mkC 0 (neg one)) s).
(** src/num/complex.rs:1099-1120 [cosh]. *)
Definition ccosh (z : cplx T) : outcome (cplx T) := ccos (mkC (- im z) (re z)).
(** src/num/complex.rs:1099-1120 [tanh]. *)
Definition ctanh (z : cplx T) : outcome (cplx T) :=
  let! s := csinh z in let! c := ccosh z in cdiv s c.
(** src/num/complex.rs:1099-1120 [coth]. *)
Definition ccoth (z : cplx T) : outcome (cplx T) :=
  let! c := ccosh z in let! s := csinh z in cdiv c s.
(** src/num/complex.rs:1123-1132 [sech], [csch]. *)
Definition csech (z : cplx T) : outcome (cplx T) := csec (mkC (- im z) (re z)).
(** src/num/complex.rs:1123-1132 [csch]. *)
Definition ccsch (z : cplx T) : outcome (cplx T) :=
  let! s := ccsc (mkC (- im z) (re z)) in Ret (cmul (mkC 0 (neg one)) s).
(** src/num/complex.rs:1139-1154 [arsinh], [arcosh]. *)
Definition carsinh (z : cplx T) : cplx T :=
  let p := mkC (1 / (1 + 1)) 0 in cln (cadd z (cpow (cadd (cmul z z) cone) p)).
(** src/num/complex.rs:1139-1154 [arcosh]. *)
Definition carcosh (z : cplx T) : cplx T :=
  let p := mkC (1 / (1 + 1)) 0 in cln (cadd z (cpow (csub (cmul z z) cone) p)).
(** src/num/complex.rs:1161-1177 [artanh], [arcoth]. *)
Definition cartanh (z : cplx T) : outcome (cplx T) :=
  let f := mkC (1 / (1 + 1)) 0 in
  let! q := cdiv (cadd cone z) (csub cone z) in Ret (cmul (cln q) f).
(** src/num/complex.rs:1161-1177 [arcoth]. *)
Definition carcoth (z : cplx T) : outcome (cplx T) :=
  let f := mkC (1 / (1 + 1)) 0 in
  let! q := cdiv (cadd z cone) (csub z cone) in Ret (cmul (cln q) f).
(** src/num/complex.rs:1180-1189 [arsech], [arcsch]. *)
Definition carsech (z : cplx T) : outcome (cplx T) := let! w := cdiv cone z in Ret (carcosh w).
(** src/num/complex.rs:1180-1189 [arcsch]. *)
Definition carcsch (z : cplx T) : outcome (cplx T) := let! w := cdiv cone z in Ret (carsinh w).

End Model.

(** Complex numbers as matrix elements.  [x / y] returns zero where [div] panics, and [abs], [sign]
    are the complex ones; theorems about this instance use only exact ring and field laws. *)
Definition C_ops {T} {O : Ops T} {P : POps T} {E : EOps T} : Ops (cplx T) := {|
  zero := czero; one := cone; add := cadd; sub := csub; mul := cmul;
  div := fun z w => match cdiv z w with Ret q => q | Panic => czero end;
  neg := cneg; eqb := ceqb; ltb := cltb; leb := cleb; tabs := cabs |}.
