(** Special functions: src/special/gamma.rs, src/special/error.rs, src/special/beta.rs, src/special/hypergeometric.rs.
    Definitions only.

    The macros [impl_gamma!], [impl_beta!], [impl_hypergeometric!] and the two [impl Error] blocks
    are instantiated for f32 and f64; the model is generic in the number type and reads every
    decimal literal as the rational number it denotes.  Loops without a static bound take a
    [fuel] argument bounding the number of iterations; running out of fuel is [Ret None], so that
    [Ret (Some v)] is a normal return of the Rust function and [Panic] a Rust panic. *)
From Coq Require Import Arith List Bool ZArith Reals SpecFloat.
From Verif Require Import Outcome Scalar RealOps Elem_model Int_model Ode_model.
Import ListNotations.
Local Open Scope sc_scope.

(** Conversions of src/algebra/abstr/cast.rs:118-125 ([from_u32], [from_u64]), 45-49 ([to_u32],
    [to_i32]) and [Real::floor] (src/algebra/abstr/real.rs:57). No laws. *)
Class ZOps (T : Type) := {
  of_int : Z -> T;
  as_u32 : T -> Z;
  as_i32 : T -> Z;
  tfloor : T -> T
}.

(** Exact reals: casts truncate towards zero and saturate. *)
Definition R_trunc (x : R) : Z :=
  if Rlt_dec x 0 then (- Int_part (- x))%Z else Int_part x.
(** The conversions on exact reals (src/algebra/abstr/cast.rs:45-49, 118-125; src/algebra/abstr/real.rs:57). *)
#[global] Instance R_zops : ZOps R := {
  of_int := IZR;
  as_u32 := fun x => clamp u32 (R_trunc x);
  as_i32 := fun x => clamp i32 (R_trunc x);
  tfloor := fun x => IZR (Int_part x)
}.

(** f64: src/num/primitives/mod.rs:190-256; floor(x) = - ceil(-x). *)
#[global] Instance F64_zops : ZOps f64 := {
  of_int := int_as_f64;
  as_u32 := float_as_int u32;
  as_i32 := float_as_int i32;
  tfloor := fun x => SFopp (F64_ceil (SFopp x))
}.

(** Sequencing of computations that may panic or run out of fuel. *)
Definition obind {A B} (x : outcome (option A)) (f : A -> outcome (option B)) : outcome (option B) :=
  match x with
  | Ret (Some a) => f a
  | Ret None => Ret None
  | Panic => Panic
  end.
(** A computation without loops. *)
Definition olift {A} (x : outcome A) : outcome (option A) :=
  match x with Ret a => Ret (Some a) | Panic => Panic end.

Section Model.
Context {T : Type} {O : Ops T} {P : POps T} {E : EOps T} {Zo : ZOps T}.

(** ** Gamma function *)

(** src/special/gamma.rs:268-281: Lanczos approximation (g = 7, n = 9) for [z >= 0.5]. *)
Definition lanczos_sum (z : T) : T :=
  lit 99999999999980993 100000000000000000
  + lit 6765203681218851 10000000000000 / z
  - lit 12591392167224028 10000000000000 / (z + 1)
  + lit 77132342877765313 100000000000000 / (z + lit 2 1)
  - lit 17661502916214059 100000000000000 / (z + lit 3 1)
  + lit 12507343278686905 1000000000000000 / (z + lit 4 1)
  - lit 13857109526572012 100000000000000000 / (z + lit 5 1)
  + lit 99843695780195716 10000000000000000000000 / (z + lit 6 1)
  + lit 15056327351493116 100000000000000000000000 / (z + lit 7 1).
(** src/special/gamma.rs:268-281: the whole expression. *)
Definition lanczos (z : T) : T :=
  let t := z + lit 13 2 in
  tsqrt (lit 2 1) * tsqrt tpi * tpow t (z - lit 1 2) * texp (- t) * lanczos_sum z.

(** src/special/gamma.rs:256-282: one unfolding of the recursive function; [rec] is the recursive call. *)
Definition gamma_step (rec : T -> outcome T) (z : T) : outcome T :=
  if eqb z 0 then Panic
  else if ltb z (lit 1 2) then
    let! g := rec (1 - z) in Ret (tpi / (tsin (tpi * z) * g))
  else Ret (lanczos z).
(** The recursive call is made with an argument above 1/2 and returns at once, so two unfoldings
    are the whole function (proved in Special_proofs: [gamma_unfold]). *)
Definition sgamma : T -> outcome T := gamma_step (gamma_step (fun _ => Panic)).

(** src/special/gamma.rs:284-330 [ln_gamma]. *)
Definition gamma_r : T := lit 10900511 1000000.
(** src/special/gamma.rs:290: first entry of the table. *)
Definition gamma_dk0 : T := lit 248574089138753565546 10000000000000000000000000.
(** src/special/gamma.rs:290-300: remaining entries. *)
Definition gamma_dk : list T := [
  lit 105142378581721974210 100000000000000000000;
  lit (-345687097222016235469) 100000000000000000000;
  lit 451227709466894823700 100000000000000000000;
  lit (-298285225323576655721) 100000000000000000000;
  lit 105639711577126713077 100000000000000000000;
  lit (-195428773191645869583) 1000000000000000000000;
  lit 170970543404441224307 10000000000000000000000;
  lit (-571926117404305781283) 1000000000000000000000000;
  lit 463399473359905636708 100000000000000000000000000;
  lit (-271994908488607703910) 100000000000000000000000000000].
(** The fold over [enumerate().skip(1)]: [d i] is the denominator for the 1-based index [i]. *)
Fixpoint dk_sum (d : Z -> T) (i : Z) (l : list T) (s : T) : T :=
  match l with
  | [] => s
  | c :: l' => dk_sum d (i + 1) l' (s + c / d i)
  end.
(** src/special/gamma.rs:284-330 [ln_gamma]. *)
Definition sln_gamma (x : T) : T :=
  if ltb x (lit 1 2) then
    let s := dk_sum (fun i => of_int i - x) 1 gamma_dk gamma_dk0 in
    tln tpi - tln (tsin (tpi * x)) - tln s
    - tln (lit 2 1 * tpow (te / tpi) (lit 1 2))
    - (lit 1 2 - x) * tln ((lit 1 2 - x + gamma_r) / te)
  else
    let s := dk_sum (fun i => x + of_int i - 1) 1 gamma_dk gamma_dk0 in
    tln s + tln (lit 2 1 * tpow (te / tpi) (lit 1 2))
    + (x - lit 1 2) * tln ((x - lit 1 2 + gamma_r) / te).

(** src/special/gamma.rs:721-725: the public free function [ln_gamma] calls [gamma]. *)
Definition free_ln_gamma (x : T) : outcome T := sgamma x.

(** src/special/gamma.rs:334-369 [digamma]: the while loop ... *)
Fixpoint digamma_loop (fuel : nat) (value x2 : T) : option (T * T) :=
  if ltb x2 (lit 17 2) then
    match fuel with
    | 0%nat => None
    | S k => digamma_loop k (value - 1 / x2) (x2 + 1)
    end
  else Some (value, x2).
(** ... and de Moivre's expansion. *)
Definition digamma_tail (value x2 : T) : T :=
  let r := 1 / x2 in
  let value := value + tln x2 - lit 1 2 * r in
  let r := r * r in
  value - r * (1 / lit 12 1 - r * (1 / lit 120 1 - r * (1 / lit 252 1 - r * (1 / lit 240 1
          - r * (1 / lit 132 1 - r * (lit 691 1 / lit 32760 1 - r * (1 / lit 12 1))))))).
(** src/special/gamma.rs:334-369 [digamma]. *)
Definition sdigamma (fuel : nat) (x : T) : option T :=
  match digamma_loop fuel 0 x with
  | Some (v, x2) => Some (digamma_tail v x2)
  | None => None
  end.

(** ** Incomplete gamma functions *)

(** src/special/gamma.rs:394 [eps]. *)
Definition lr_eps : T := lit 1 1000000000000000.
(** src/special/gamma.rs:395 [big]. *)
Definition lr_big : T := lit 4503599627370496 1.
(** src/special/gamma.rs:396 [big_inv]. *)
Definition lr_big_inv : T := lit 222044604925031308085 1000000000000000000000000000000000000.

(** src/special/gamma.rs:421-434: the power series; returns [ans2]. *)
Fixpoint lr_series (fuel : nat) (x r2 c2 ans2 : T) : option T :=
  match fuel with
  | 0%nat => None
  | S k =>
      let r2 := r2 + 1 in
      let c2 := c2 * (x / r2) in
      let ans2 := ans2 + c2 in
      if leb (c2 / ans2) lr_eps then Some ans2 else lr_series k x r2 c2 ans2
  end.

(** src/special/gamma.rs:438-482: the continued fraction; returns [ans]. *)
Fixpoint lr_cf (fuel : nat) (y z c p3 q3 p2 q2 ans : T) : option T :=
  match fuel with
  | 0%nat => None
  | S k =>
      let y := y + 1 in
      let z := z + lit 2 1 in
      let c := c + 1 in
      let yc := y * c in
      let p := p2 * z - p3 * yc in
      let q := q2 * z - q3 * yc in
      let p3 := p2 in
      let p2 := p in
      let q3 := q2 in
      let q2 := q in
      let '(p3, p2, q3, q2) :=
        if ltb lr_big (tabs p)
        then (p3 * lr_big_inv, p2 * lr_big_inv, q3 * lr_big_inv, q2 * lr_big_inv)
        else (p3, p2, q3, q2) in
      if negb (eqb q 0) then
        let nextans := p / q in
        let err := tabs ((ans - nextans) / nextans) in
        if leb err lr_eps then Some nextans else lr_cf k y z c p3 q3 p2 q2 nextans
      else lr_cf k y z c p3 q3 p2 q2 ans
  end.

(** src/special/gamma.rs:386-485 [gamma_lr]. *)
Definition sgamma_lr (fuel : nat) (a x : T) : outcome (option T) :=
  if leb x 0 then Panic
  else if eqb a 0 then Ret (Some 1)
  else if eqb x 0 then Ret (Some 0)
  else
    let ax := a * tln x - x - sln_gamma a in
    if ltb ax (lit (-70978271289338399) 100000000000000) then
      (if ltb a x then Ret (Some 1) else Ret (Some 0))
    else if leb x 1 || leb x a then
      Ret (match lr_series fuel x a 1 1 with
           | Some ans2 => Some (texp ax * ans2 / a)
           | None => None
           end)
    else
      let y := 1 - a in
      let z := x + y + 1 in
      let p2 := x + 1 in
      let q2 := z * x in
      Ret (match lr_cf fuel y z 0 1 x p2 q2 (p2 / q2) with
           | Some ans => Some (1 - texp ax * ans)
           | None => None
           end).

(** src/special/gamma.rs:371-384 [gamma_u], [gamma_ur], [gamma_l]. *)
Definition sgamma_ur (fuel : nat) (a x : T) : outcome (option T) :=
  obind (sgamma_lr fuel a x) (fun v => Ret (Some (1 - v))).
(** src/special/gamma.rs:371-374 [gamma_u]. *)
Definition sgamma_u (fuel : nat) (a x : T) : outcome (option T) :=
  obind (sgamma_ur fuel a x) (fun v =>
  obind (olift (sgamma a)) (fun g => Ret (Some (v * g)))).
(** src/special/gamma.rs:381-384 [gamma_l]. *)
Definition sgamma_l (fuel : nat) (a x : T) : outcome (option T) :=
  obind (sgamma_lr fuel a x) (fun v =>
  obind (olift (sgamma a)) (fun g => Ret (Some (v * g)))).

(** ** Inverse of the upper regularised gamma function *)

(** src/special/gamma.rs:642-654 the inner function [r]. *)
Definition ur_r (a x : T) : outcome T :=
  if leb a 0 then Panic else if ltb x 0 then Panic
  else let! g := sgamma a in Ret (tpow x a * texp (- x) / g).

(** src/special/gamma.rs:502-572: the starting value. *)
Definition ur_start (a q : T) : outcome T :=
  let c := lit 5772156649015328606065 10000000000000000000000 in
  let! ga := sgamma a in
  let b := q * ga in
  let p := 1 - q in
  if ltb (lit 3 5) b || (leb (lit 9 20) b && leb (lit 3 10) a) then
    let! u := (if ltb (lit 1 100000000) (b * q)
               then let! g1 := sgamma (a + 1) in Ret (tpow (p * g1) (1 / a))
               else Ret (texp (- q / a - c))) in
    Ret (u / (1 - u / (a + 1)))
  else if ltb a (lit 3 10) && leb (lit 7 20) b && leb b (lit 3 5) then
    let t := texp (- c - b) in
    let u := t * texp t in
    Ret (t * texp u)
  else if (leb (lit 3 20) b && ltb b (lit 7 20))
          || (leb (lit 7 20) a && leb (lit 3 20) b && ltb b (lit 9 20)) then
    let y := - tln b in
    let v := y - (1 - a) * tln y in
    Ret (y - (1 - a) * tln v - tln (1 + (1 - a) / (1 + v)))
  else if ltb (lit 1 100) b && ltb b (lit 3 20) then
    let y := - tln b in
    let v := y - (1 - a) * tln y in
    Ret (y - (1 - a) * tln v
         - tln ((v * v + lit 2 1 * (lit 3 1 - a) * v + (lit 2 1 - a) * (lit 3 1 - a))
                / (v * v + (lit 5 1 - a) * v + lit 2 1)))
  else
    let y := - tln b in
    let c1 := (a - 1) * tln y in
    let c2 := (a - 1) * (1 + c1) in
    let c12 := c1 * c1 in
    let c3 := (a - 1) * (- c12 / lit 2 1 + (a - lit 2 1) * c1 + (lit 3 1 * a - lit 5 1) / lit 2 1) in
    let a2 := a * a in
    let c13 := c12 * c1 in
    let c4 := (a - 1) * (c13 / lit 3 1 - (lit 3 1 * a - lit 5 1) / lit 2 1 * c12
              + (a2 + lit (-6) 1 * a + lit 7 1) * c1
              + (lit 11 1 * a2 - lit 46 1 * a + lit 47 1) / lit 6 1) in
    let c14 := c13 * c1 in
    let a3 := a2 * a in
    let c5 := (a - 1) * (- c14 / lit 4 1 + (lit 11 1 * a - lit 17 1) / lit 6 1 * c13
              + (lit (-3) 1 * a2 + lit 13 1 * a - lit 13 1) * c12
              + (lit 2 1 * a3 - lit 25 1 * a2 + lit 72 1 * a - lit 61 1) / lit 2 1 * c1
              + (lit 25 1 * a3 - lit 195 1 * a2 + lit 477 1 * a - lit 379 1) / lit 12 1) in
    let y2 := y * y in
    let y3 := y2 * y in
    let y4 := y3 * y in
    Ret (y + c1 + c2 / y + c3 / y2 + c4 / y3 + c5 / y4).

(** src/special/gamma.rs:576-640: at most [n] corrections (20 in the source); [fuel] bounds the loops of the
    incomplete gamma functions. *)
Fixpoint ur_iter (fuel n : nat) (a p q xn : T) : outcome (option T) :=
  match n with
  | 0%nat => Ret (Some xn)
  | S n' =>
      obind (olift (ur_r a xn)) (fun rx =>
      let wn := (a - 1 - xn) / lit 2 1 in
      obind (if leb p (lit 1 2)
             then obind (sgamma_lr fuel a xn) (fun v => Ret (Some ((v - p) / rx)))
             else obind (sgamma_ur fuel a xn) (fun v => Ret (Some ((q - v) / rx)))) (fun tn =>
      if leb (tabs tn) (lit 1 10) && leb (tabs (wn * tn)) (lit 1 10) then
        let k := wn * tn * tn in
        let hn := tn + k in
        let x1 := xn * (1 - hn) in
        if leb 1 (tabs wn) && leb (tabs k) (lit 1 10000000000) then Ret (Some x1)
        else ur_iter fuel n' a p q x1
      else
        let hn := tn in
        let x1 := xn * (1 - hn) in
        if ltb (tabs hn) (lit 1 10000000000) then Ret (Some x1)
        else if leb (tabs hn) (lit 1 100000) then
          (if leb p (lit 1 2) then
             obind (sgamma_lr fuel a xn) (fun v =>
               if ltb (tabs (v - p)) (lit 1 100000 * p) then Ret (Some x1)
               else ur_iter fuel n' a p q x1)
           else
             obind (sgamma_ur fuel a xn) (fun v =>
               if leb (tabs (q - v)) (lit 1 100000 * q) then Ret (Some x1)
               else ur_iter fuel n' a p q x1))
        else ur_iter fuel n' a p q x1))
  end.

(** src/special/gamma.rs:490-640 [gamma_ur_inv]. *)
Definition sgamma_ur_inv (fuel : nat) (a q : T) : outcome (option T) :=
  if eqb a 1 then Ret (Some (- tln q))
  else obind (olift (ur_start a q)) (fun x0 => ur_iter fuel 20 a (1 - q) q x0).
(** src/special/gamma.rs:657-660 [gamma_lr_inv]. *)
Definition sgamma_lr_inv (fuel : nat) (a q : T) : outcome (option T) :=
  obind (sgamma_ur_inv fuel a q) (fun v => Ret (Some (1 - v))).

(** ** Error function *)

(** src/special/error.rs:72-79 [erf]. *)
Definition serf (fuel : nat) (x : T) : outcome (option T) :=
  if eqb x 0 then Ret (Some x)
  else obind (sgamma_u fuel (lit 1 2) (x * x)) (fun u =>
       Ret (Some (fsign x * (1 - u / tsqrt tpi)))).
(** src/special/error.rs:81-84 [erfc]. *)
Definition serfc (fuel : nat) (x : T) : outcome (option T) :=
  obind (serf fuel x) (fun v => Ret (Some (1 - v))).

(** src/special/error.rs:359-371 [horner]; the slice is the head [c0] followed by [cs]; [last_idx = length cs].
    The loop runs over [(1..last_idx).rev()]. *)
Definition horner (x c0 : T) (cs : list T) : T :=
  match rev cs with
  | [] => c0 * x + c0
  | l :: init => fold_left (fun f c => (f + c) * x) init (l * x) + c0
  end.
(** src/special/error.rs:373-383 [copysign]. *)
Definition copysign (a b : T) : T :=
  let an := ltb a 0 in
  let bn := ltb b 0 in
  if (an && negb bn) || (negb an && bn) then - a else a.

(** src/special/error.rs:92-144: the coefficient tables (f64). *)
Definition ei_p1_0 : T := lit 160304955844066229311 10000000000000000000.
(** src/special/error.rs:92-98. *)
Definition ei_p1 : list T := [
  lit (-9078495926296032665) 100000000000000000;
  lit 18644914861620987391 100000000000000000;
  lit (-1690014273464238242) 10000000000000000;
  lit 6545466284794487048 100000000000000000;
  lit (-864213011587247794) 100000000000000000;
  lit 176058782139059 1000000000000000].
(** src/special/error.rs:100. *)
Definition ei_q1_0 : T := lit 14780647071513831611 1000000000000000000.
(** src/special/error.rs:100-106. *)
Definition ei_q1 : list T := [
  lit (-91374167024260313936) 1000000000000000000;
  lit 21015790486205317714 100000000000000000;
  lit (-22210254121855132366) 100000000000000000;
  lit 1076045391605512383 10000000000000000;
  lit (-206010730328265443) 10000000000000000;
  lit 1 1].
(** src/special/error.rs:107. *)
Definition ei_p2_0 : T := lit (-152389263440726128) 10000000000000000000.
(** src/special/error.rs:107-114. *)
Definition ei_p2 : list T := [
  lit 3444556924136125216 10000000000000000000;
  lit (-29344398672542478687) 10000000000000000000;
  lit 11763505705217827302 1000000000000000000;
  lit (-22655292823101104193) 1000000000000000000;
  lit 19121334396580330163 1000000000000000000;
  lit (-5478927619598318769) 1000000000000000000;
  lit 237516689024448 1000000000000000].
(** src/special/error.rs:116. *)
Definition ei_q2_0 : T := lit (-108465169602059954) 10000000000000000000.
(** src/special/error.rs:116-123. *)
Definition ei_q2 : list T := [
  lit 2610628885843078511 10000000000000000000;
  lit (-24068318104393757995) 10000000000000000000;
  lit 10695129973387014469 1000000000000000000;
  lit (-23716715521596581025) 1000000000000000000;
  lit 24640158943917284883 1000000000000000000;
  lit (-10014376349783070835) 1000000000000000000;
  lit 1 1].
(** src/special/error.rs:125. *)
Definition ei_p3_0 : T := lit 10501311523733438116 100000000000000000000000.
(** src/special/error.rs:125-133. *)
Definition ei_p3 : list T := [
  lit 1053261131423333816425 100000000000000000000000;
  lit 26987802736243283544516 100000000000000000000000;
  lit 23268695788919690806414 10000000000000000000000;
  lit 71678547949107996810001 10000000000000000000000;
  lit 85475611822167827825185 10000000000000000000000;
  lit 68738088073543839802913 10000000000000000000000;
  lit 3627002483095870893002 1000000000000000000000;
  lit 886062739296515468149 1000000000000000000000].
(** src/special/error.rs:135. *)
Definition ei_q3_0 : T := lit 1050126668703033769 10000000000000000000000.
(** src/special/error.rs:135-144. *)
Definition ei_q3 : list T := [
  lit 1053286230093332753111 100000000000000000000000;
  lit 27019862373751554845553 100000000000000000000000;
  lit 23501436397970253259123 10000000000000000000000;
  lit 76078028785801277064351 10000000000000000000000;
  lit 111815861040569078273451 10000000000000000000000;
  lit 119487879184353966678438 10000000000000000000000;
  lit 81922409747269907893913 10000000000000000000000;
  lit 4099387907636801536145 1000000000000000000000;
  lit 1 1].

(** src/special/error.rs:90-182 [erfinv]; [inf] is the infinity returned at 1. *)
Definition serfinv (inf x : T) : outcome T :=
  let a := tabs x in
  if leb 1 a then
    (if eqb x 1 then Ret inf else if eqb x (neg one) then Ret (- inf) else Panic)
  else if leb a (lit 3 4) then
    let t := x * x - lit 9 16 in
    Ret (x * horner t ei_p1_0 ei_p1 / horner t ei_q1_0 ei_q1)
  else if leb a (lit 15 16) then
    let t := x * x - lit 225 256 in
    Ret (x * horner t ei_p2_0 ei_p2 / horner t ei_q2_0 ei_q2)
  else
    let t := 1 / tsqrt (- tln (1 - a)) in
    Ret (horner t ei_p3_0 ei_p3 / (copysign t x * horner t ei_q3_0 ei_q3)).
(** src/special/error.rs:212-240: the coefficient tables (f32). *)
Definition e32_p1_0 : T := lit (-1309599674222) 100000000000.
(** src/special/error.rs:212-214. *)
Definition e32_p1 : list T := [
  lit 2678522576022 10000000000000;
  lit (-9289057365) 1000000000].
(** src/special/error.rs:216. *)
Definition e32_q1_0 : T := lit (-120749426297) 10000000000.
(** src/special/error.rs:216-219. *)
Definition e32_q1 : list T := [
  lit 30960614529 1000000000;
  lit (-17149977991) 1000000000;
  lit 1 1].
(** src/special/error.rs:221. *)
Definition e32_p2_0 : T := lit (-124025652212) 1000000000000.
(** src/special/error.rs:221-224. *)
Definition e32_p2 : list T := [
  lit 10688059574 10000000000;
  lit (-19594556078) 10000000000;
  lit 4230581357 10000000000].
(** src/special/error.rs:226. *)
Definition e32_q2_0 : T := lit 8827697997 100000000000.
(** src/special/error.rs:226-229. *)
Definition e32_q2 : list T := [
  lit 8900743359 10000000000;
  lit (-21757031196) 10000000000;
  lit 1 1].
(** src/special/error.rs:231. *)
Definition e32_p3_0 : T := lit 1550470003116 10000000000000.
(** src/special/error.rs:231-236. *)
Definition e32_p3 : list T := [
  lit 1382719649631 1000000000000;
  lit 690969348887 1000000000000;
  lit (-1128081391617) 1000000000000;
  lit 680544246825 1000000000000;
  lit (-16444156791) 100000000000].
(** src/special/error.rs:238. *)
Definition e32_q3_0 : T := lit 155024849822 1000000000000.
(** src/special/error.rs:238-240. *)
Definition e32_q3 : list T := [
  lit 1385228141995 1000000000000;
  lit 1 1].
(** src/special/error.rs:210-274 [erfinv] for f32; the code is the same apart from the tables. *)
Definition serfinv32 (inf x : T) : outcome T :=
  let a := tabs x in
  if leb 1 a then
    (if eqb x 1 then Ret inf else if eqb x (neg one) then Ret (- inf) else Panic)
  else if leb a (lit 3 4) then
    let t := x * x - lit 9 16 in
    Ret (x * horner t e32_p1_0 e32_p1 / horner t e32_q1_0 e32_q1)
  else if leb a (lit 15 16) then
    let t := x * x - lit 225 256 in
    Ret (x * horner t e32_p2_0 e32_p2 / horner t e32_q2_0 e32_q2)
  else
    let t := 1 / tsqrt (- tln (1 - a)) in
    Ret (horner t e32_p3_0 e32_p3 / (copysign t x * horner t e32_q3_0 e32_q3)).

(** src/special/error.rs:184-191 [erfcinv]. *)
Definition serfcinv (inf x : T) : outcome T :=
  if ltb x 0 || ltb (lit 2 1) x then Panic else serfinv inf (1 - x).

(** ** Beta function *)

(** src/special/beta.rs:109-112 [beta]. *)
Definition sbeta (x y : T) : outcome T :=
  let! gx := sgamma x in
  let! gy := sgamma y in
  let! gs := sgamma (x + y) in
  Ret (gx * gy / gs).

(** src/special/beta.rs:123 [acu]. *)
Definition beta_acu : T := lit 1 1000000000000000.
(** src/special/beta.rs:188-221: the Soper reduction loop; returns [value] before line 196. [ns] is an i32,
    its decrement is not checked for overflow here. *)
Fixpoint beta_loop (fuel : nat) (pp qq xx : T) (ns : Z) (psq ai term value temp rx : T) : option T :=
  match fuel with
  | 0%nat => None
  | S k =>
      let term := term * temp * rx / (pp + ai) in
      let value := value + term in
      let temp := tabs term in
      if leb temp beta_acu && leb temp (beta_acu * value) then Some value
      else
        let ai := ai + 1 in
        let ns := (ns - 1)%Z in
        if (0 <=? ns)%Z then
          beta_loop k pp qq xx ns psq ai term value (qq - ai) (if (ns =? 0)%Z then xx else rx)
        else
          beta_loop k pp qq xx ns (psq + 1) ai term value psq rx
  end.

(** src/special/beta.rs:121-224 [beta_inc_reg] of [self = x]. *)
Definition sbeta_inc_reg (fuel : nat) (x a b : T) : outcome (option T) :=
  if leb a 0 || leb b 0 then Panic
  else if ltb x 0 || ltb 1 x then Panic
  else if eqb x 0 || eqb x 1 then Ret (Some x)
  else
    let psq := a + b in
    let swap := ltb a (psq * x) in
    let '(xx, cx, pp, qq) :=
      if swap then (1 - x, x, b, a) else (x, 1 - x, a, b) in
    let ns := as_i32 (qq + cx * psq) in
    let rx := if (ns =? 0)%Z then xx else xx / cx in
    match beta_loop fuel pp qq xx ns psq 1 1 1 (qq - 1) rx with
    | None => Ret None
    | Some value =>
        obind (olift (sbeta a b)) (fun bt =>
        let value := value * texp (pp * tln xx + (qq - 1) * tln cx - tln bt) / pp in
        Ret (Some (if swap then 1 - value else value)))
    end.
(** src/special/beta.rs:114-117 [beta_inc]. *)
Definition sbeta_inc (fuel : nat) (x a b : T) : outcome (option T) :=
  obind (olift (sbeta a b)) (fun bt =>
  obind (sbeta_inc_reg fuel x a b) (fun v => Ret (Some (bt * v)))).

(** ** Hypergeometric function *)

(** src/special/hypergeometric.rs: the tolerance passed to the macro for f64. *)
Definition f21_tol : T := lit 2 10000000000000000.
(** src/special/hypergeometric.rs:17-35 [f21_f64_norm]. *)
Fixpoint f21_loop (fuel : nat) (a b c z ci si sip j : T) : option T :=
  if ltb f21_tol (tabs ci / tabs sip) then
    match fuel with
    | 0%nat => None
    | S k =>
        let kk := (a + j) * (b + j) / (c + j) in
        let l := z / (j + 1) in
        let ci := ci * kk * l in
        f21_loop k a b c z ci (si + ci) si (j + 1)
    end
  else Some si.
(** src/special/hypergeometric.rs:17-35 [f21_f64_norm]. *)
Definition f21_norm (fuel : nat) (a b c z : T) : option T := f21_loop fuel a b c z 1 1 1 0.

(** src/special/hypergeometric.rs:40-151 [f21].  The test [-inf < z] of line 68 holds for every number the
    panic test lets through except -inf itself, which is not modelled. *)
Definition sf21 (fuel : nat) (a b c z : T) : outcome (option T) :=
  if leb a 0 || leb b 0 || leb c 0 || ltb 1 z then Panic
  else if eqb z 1 then
    (if ltb (c - a - b) 0 then
       olift (let! g1 := sgamma c in let! g2 := sgamma (a + b - c) in
              let! g3 := sgamma a in let! g4 := sgamma b in Ret (g1 * g2 / (g3 * g4)))
     else if eqb (c - a - b) 0 then
       olift (let! g1 := sgamma c in let! g2 := sgamma a in let! g3 := sgamma b in
              Ret (g1 / (g2 * g3)))
     else
       olift (let! g1 := sgamma c in let! g2 := sgamma (c - a - b) in
              let! g3 := sgamma (c - a) in let! g4 := sgamma (c - b) in Ret (g1 * g2 / (g3 * g4))))
  else if ltb z (neg one) then
    obind (olift (let! g1 := sgamma c in let! g2 := sgamma (b - a) in
                  let! g3 := sgamma b in let! g4 := sgamma (c - a) in
                  Ret (tpow (1 - z) (- a) * g1 * g2 / (g3 * g4)))) (fun l1 =>
    obind (olift (let! g1 := sgamma c in let! g2 := sgamma (a - b) in
                  let! g3 := sgamma a in let! g4 := sgamma (c - b) in
                  Ret (tpow (1 - z) (- b) * g1 * g2 / (g3 * g4)))) (fun l2 =>
    match f21_norm fuel a (c - b) (a - b + 1) (1 / (1 - z)),
          f21_norm fuel b (c - a) (b - a + 1) (1 / (1 - z)) with
    | Some f1, Some f2 => Ret (Some (l1 * f1 + l2 * f2))
    | _, _ => Ret None
    end))
  else if leb (neg one) z && ltb z 0 then
    match f21_norm fuel a (c - b) c (z / (z - 1)) with
    | Some v => Ret (Some (v * tpow (1 - z) (- a)))
    | None => Ret None
    end
  else if leb 0 z && leb z (lit 1 2) then Ret (f21_norm fuel a b c z)
  else if ltb (lit 1 2) z && leb z 1 then
    obind (olift (let! g1 := sgamma c in let! g2 := sgamma (c - a - b) in
                  let! g3 := sgamma (c - a) in let! g4 := sgamma (c - b) in
                  Ret (g1 * g2 / (g3 * g4)))) (fun l1 =>
    obind (olift (let! g1 := sgamma c in let! g2 := sgamma (a + b - c) in
                  let! g3 := sgamma a in let! g4 := sgamma b in
                  Ret (tpow (1 - z) (c - a - b) * g1 * g2 / (g3 * g4)))) (fun l2 =>
    match f21_norm fuel a b (a + b - c + 1) (1 - z),
          f21_norm fuel (c - a) (c - b) (c - a - b + 1) (1 - z) with
    | Some f1, Some f2 => Ret (Some (l1 * f1 + l2 * f2))
    | _, _ => Ret None
    end))
  else Panic.

End Model.
