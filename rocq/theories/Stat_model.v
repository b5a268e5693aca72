(** Statistics: src/statistics/combins.rs, src/statistics/distrib/*.rs, src/statistics/test/*.rs.
    Definitions only.

    Random numbers are arguments: [rand::random::<f64>()] (a number in [0,1)) and
    [gen_range(a..b)] (a number in [a,b)) are replaced by the values the generator produced. *)
From Coq Require Import Arith List Bool ZArith Reals SpecFloat.
From Verif Require Import Outcome Scalar RealOps Elem_model Int_model Ode_model Special_model.
Import ListNotations.

(** ** Combinatorics *)

(** Multiplication of u64 values: with overflow checks it panics, without them it wraps. *)
Definition u64_mul (checked : bool) (a b : Z) : outcome Z :=
  if checked then ichk u64 (a * b)%Z else Ret ((a * b) mod 2 ^ 64)%Z.

(** src/statistics/combins.rs:4-14 [factorial]: [k] is the loop variable [n], [result] the accumulator. *)
Fixpoint factorial_loop (checked : bool) (k : nat) (result : Z) : outcome Z :=
  match k with
  | 0 => Ret result
  | S k' => let! r := u64_mul checked result (Z.of_nat k) in factorial_loop checked k' r
  end.
(** src/statistics/combins.rs:4-14. *)
Definition factorial (checked : bool) (f : nat) : outcome Z := factorial_loop checked f 1.

(** src/statistics/combins.rs:19-22 [binom].  [n - k] underflows for [k > n]: a panic with overflow checks; the
    wrapped value of an unchecked build is only modelled for [k <= n]. *)
Definition binom (checked : bool) (n k : nat) : outcome Z :=
  let! fn := factorial checked n in
  let! fk := factorial checked k in
  let! d := usub n k in
  let! fd := factorial checked d in
  let! m := u64_mul checked fk fd in
  if (m =? 0)%Z then Panic else Ret (as_int u32 (fn / m)).

(** ** The special functions the distributions call

    The trait bounds [T: Real + Gamma + Error + Beta + Hypergeometric] of the distributions; no
    laws.  A computation may panic; non-termination is not represented. *)
Class Special (T : Type) := {
  x_gamma : T -> outcome T;
  x_digamma : T -> outcome T;
  x_gamma_lr : T -> T -> outcome T;
  x_gamma_ur : T -> T -> outcome T;
  x_gamma_ur_inv : T -> T -> outcome T;
  x_erf : T -> outcome T;
  x_beta : T -> T -> outcome T;
  x_beta_inc_reg : T -> T -> T -> outcome T;
  x_f21 : T -> T -> T -> T -> outcome T
}.

(** The implementations of src/special with [fuel] loop iterations; running out of fuel is turned
    into a panic here, so only [Ret] results of this instance speak about the crate. *)
Definition defuel {A} (x : outcome (option A)) : outcome A :=
  match x with Ret (Some a) => Ret a | _ => Panic end.
(** The trait implementations of src/special for f32 and f64 as one record. *)
Definition impl_special {T} {O : Ops T} {P : POps T} {E : EOps T} {Zo : ZOps T} (fuel : nat) :
  Special T := {|
  x_gamma := sgamma;
  x_digamma := fun x => defuel (Ret (sdigamma fuel x));
  x_gamma_lr := fun a x => defuel (sgamma_lr fuel a x);
  x_gamma_ur := fun a x => defuel (sgamma_ur fuel a x);
  x_gamma_ur_inv := fun a q => defuel (sgamma_ur_inv fuel a q);
  x_erf := fun x => defuel (serf fuel x);
  x_beta := sbeta;
  x_beta_inc_reg := fun x a b => defuel (sbeta_inc_reg fuel x a b);
  x_f21 := fun a b c z => defuel (sf21 fuel a b c z)
|}.

Section Model.
Context {T : Type} {O : Ops T} {P : POps T} {E : EOps T} {Zo : ZOps T}.
Local Open Scope sc_scope.

(** Conversion of a u32/usize number, src/algebra/abstr/cast.rs:118-125. *)
Definition of_u (n : nat) : T := of_int (Z.of_nat n).

(** ** Bernoulli (src/statistics/distrib/bernoulli.rs) *)
Record bernoulli := mkBernoulli { bn_p : T }.
(** src/statistics/distrib/bernoulli.rs:38-46 [new]. *)
Definition bernoulli_new (p : T) : outcome bernoulli :=
  if ltb p 0 || ltb 1 p then Panic else Ret (mkBernoulli p).
(** src/statistics/distrib/bernoulli.rs:70-87 [pmf]; the argument is a u8. *)
Definition bernoulli_pmf (d : bernoulli) (x : nat) : outcome T :=
  if (x =? 1)%nat || (x =? 0)%nat then
    (if (x =? 0)%nat then Ret (1 - bn_p d) else Ret (bn_p d))
  else Panic.
(** src/statistics/distrib/bernoulli.rs:104-119 [cdf]. *)
Definition bernoulli_cdf (d : bernoulli) (x : T) : T :=
  if leb 1 x then 1 else if leb x 0 then 0 else 1 - bn_p d.
(** src/statistics/distrib/bernoulli.rs:131-149 [mean], [variance]. *)
Definition bernoulli_mean (d : bernoulli) : T := bn_p d.
(** src/statistics/distrib/bernoulli.rs:146-149. *)
Definition bernoulli_variance (d : bernoulli) : T := bn_p d * (1 - bn_p d).

(** ** Binomial (src/statistics/distrib/binomial.rs); integer arithmetic with overflow checks *)
Record binomial := mkBinomial { bi_p : T; bi_n : nat }.
(** src/statistics/distrib/binomial.rs:42-45 [new]: no check of the parameter. *)
Definition binomial_new (n : nat) (p : T) : binomial := mkBinomial p n.
(** src/statistics/distrib/binomial.rs:65-76 [pmf]. *)
Definition binomial_pmf (d : binomial) (x : nat) : outcome T :=
  if (bi_n d <? x)%nat then Ret 0
  else
    let! b := binom true (bi_n d) x in
    let f := of_int b in
    let! diff := ichk i32 (as_int i32 (Z.of_nat (bi_n d)) - as_int i32 (Z.of_nat x)) in
    Ret (f * tpow (bi_p d) (of_u x) * tpow (1 - bi_p d) (of_int diff)).
(** src/statistics/distrib/binomial.rs:93-103 [cdf]: [x_supremum + 1] is a u32 addition. *)
Definition binomial_cdf (d : binomial) (x : T) : outcome T :=
  let! hi := ichk u32 (as_u32 (tfloor x) + 1) in
  for_loop 0 (Z.to_nat hi) (fun k prob => let! q := binomial_pmf d k in Ret (prob + q)) 0.
(** src/statistics/distrib/binomial.rs:115-133 [mean], [variance]. *)
Definition binomial_mean (d : binomial) : T := of_u (bi_n d) * bi_p d.
(** src/statistics/distrib/binomial.rs:130-133. *)
Definition binomial_variance (d : binomial) : T := binomial_mean d * (1 - bi_p d).

(** ** Uniform (src/statistics/distrib/uniform.rs) *)
Record uniform := mkUniform { un_a : T; un_b : T }.
(** src/statistics/distrib/uniform.rs:39-47. *)
Definition uniform_new (a b : T) : outcome uniform := if leb b a then Panic else Ret (mkUniform a b).
(** src/statistics/distrib/uniform.rs:76-86. *)
Definition uniform_pdf (d : uniform) (x : T) : T :=
  if leb (un_a d) x && leb x (un_b d) then 1 / (un_b d - un_a d) else 0.
(** src/statistics/distrib/uniform.rs:103-120. *)
Definition uniform_cdf (d : uniform) (x : T) : T :=
  if ltb x (un_a d) then 0 else if ltb (un_b d) x then 1
  else (x - un_a d) / (un_b d - un_a d).
(** src/statistics/distrib/uniform.rs:137-145. *)
Definition uniform_quantile (d : uniform) (q : T) : outcome T :=
  if ltb 1 q || ltb q 0 then Panic else Ret (q * (un_b d - un_a d) + un_a d).
(** src/statistics/distrib/uniform.rs:161-233. *)
Definition uniform_mean (d : uniform) : T := (un_a d + un_b d) / lit 2 1.
(** src/statistics/distrib/uniform.rs:176-179. *)
Definition uniform_variance (d : uniform) : T :=
  (un_b d - un_a d) * (un_b d - un_a d) / lit 12 1.
(** src/statistics/distrib/uniform.rs:192-195. *)
Definition uniform_skewness (d : uniform) : T := 0.
(** src/statistics/distrib/uniform.rs:211-214. *)
Definition uniform_median (d : uniform) : T := uniform_mean d.
(** src/statistics/distrib/uniform.rs:230-233. *)
Definition uniform_entropy (d : uniform) : T := tln (un_b d - un_a d).

(** ** Exponential (src/statistics/distrib/exponential.rs) *)
Record exponential := mkExponential { ex_l : T }.
(** src/statistics/distrib/exponential.rs:38-46. *)
Definition exponential_new (l : T) : outcome exponential :=
  if leb l 0 then Panic else Ret (mkExponential l).
(** src/statistics/distrib/exponential.rs:55-65, src/statistics/distrib/normal.rs:74-85 [calc_mean]. *)
Definition calc_mean (data : list T) : T := fold_left add data 0 / of_u (length data).
(** src/statistics/distrib/exponential.rs:48-53. *)
Definition exponential_from_data (data : list T) : outcome exponential :=
  exponential_new (1 / calc_mean data).
(** src/statistics/distrib/exponential.rs:85-172. *)
Definition exponential_pdf (d : exponential) (x : T) : T :=
  if ltb x 0 then 0 else ex_l d * texp (- ex_l d * x).
(** src/statistics/distrib/exponential.rs:110-118. *)
Definition exponential_cdf (d : exponential) (x : T) : T :=
  if ltb x 0 then 0 else 1 - texp (- x * ex_l d).
(** src/statistics/distrib/exponential.rs:121-124. *)
Definition exponential_quantile (d : exponential) (p : T) : T := - tln (1 - p) / ex_l d.
(** src/statistics/distrib/exponential.rs:136-139. *)
Definition exponential_mean (d : exponential) : T := 1 / ex_l d.
(** src/statistics/distrib/exponential.rs:151-154. *)
Definition exponential_variance (d : exponential) : T := 1 / tpow (ex_l d) (of_int 2).
(** src/statistics/distrib/exponential.rs:157-160. *)
Definition exponential_skewness (d : exponential) : T := lit 2 1.
(** src/statistics/distrib/exponential.rs:163-166. *)
Definition exponential_median (d : exponential) : T := tln (lit 2 1) / ex_l d.
(** src/statistics/distrib/exponential.rs:169-172. *)
Definition exponential_entropy (d : exponential) : T := 1 - tln (ex_l d).
(** src/statistics/distrib/exponential.rs:177-183; [u] is the number [rand::random] returned. *)
Definition exponential_random (d : exponential) (u : T) : T := exponential_quantile d u.

(** ** Raised cosine (src/statistics/distrib/raisedcosine.rs) *)
Record raised_cosine := mkRaised { rc_mu : T; rc_s : T }.
(** src/statistics/distrib/raisedcosine.rs:42-49. *)
Definition raised_new (mu s : T) : outcome raised_cosine :=
  if ltb s 0 then Panic else Ret (mkRaised mu s).
(** src/statistics/distrib/raisedcosine.rs:73-82. *)
Definition raised_pdf (d : raised_cosine) (x : T) : T :=
  if leb (rc_mu d - rc_s d) x && ltb x (rc_mu d + rc_s d)
  then (1 + tcos (tpi * (x - rc_mu d) / rc_s d)) / (lit 2 1 * rc_s d)
  else 0.
(** src/statistics/distrib/raisedcosine.rs:99-117. *)
Definition raised_cdf (d : raised_cosine) (x : T) : T :=
  if leb (rc_mu d - rc_s d) x && leb x (rc_mu d + rc_s d)
  then let k := (x - rc_mu d) / rc_s d in
       (1 + k + 1 / tpi * tsin (k * tpi)) / lit 2 1
  else if ltb x (rc_mu d - rc_s d) then 0 else 1.
(** src/statistics/distrib/raisedcosine.rs:135-173; [quantile] and [entropy] are [unimplemented!()]. *)
Definition raised_mean (d : raised_cosine) : T := rc_mu d.
(** src/statistics/distrib/raisedcosine.rs:151-154. *)
Definition raised_variance (d : raised_cosine) : T :=
  rc_s d * rc_s d * (lit 1 3 - lit 2 1 / (tpi * tpi)).
(** src/statistics/distrib/raisedcosine.rs:157-160. *)
Definition raised_skewness (d : raised_cosine) : T := 0.
(** src/statistics/distrib/raisedcosine.rs:164-167. *)
Definition raised_median (d : raised_cosine) : T := rc_mu d.

(** ** Normal (src/statistics/distrib/normal.rs) *)
Record normal := mkNormal { no_mean : T; no_var : T }.
(** src/statistics/distrib/normal.rs:47-55. *)
Definition normal_new (mean variance : T) : outcome normal :=
  if leb variance 0 then Panic else Ret (mkNormal mean variance).
(** src/statistics/distrib/normal.rs:87-98 [calc_variance]. *)
Definition calc_variance (data : list T) (mean : T) : T :=
  fold_left (fun s x => s + tpow (x - mean) (lit 2 1)) data 0 / of_u (length data - 1).
(** src/statistics/distrib/normal.rs:60-72. *)
Definition normal_from_data (data : list T) : outcome normal :=
  if (length data <? 2)%nat then Panic
  else let mean := calc_mean data in normal_new mean (calc_variance data mean).
(** src/statistics/distrib/normal.rs:119-125. *)
Definition normal_pdf (d : normal) (x : T) : T :=
  let z := lit (-1) 2 * tpow ((x - no_mean d) / no_var d) (lit 2 1) in
  let f := 1 / tsqrt (no_var d * lit 2 1 * tpi) in
  f * texp z.
(** src/statistics/distrib/normal.rs:333-361 (f64 polynomials; the conversions [to_f64], [from_f64] are identities). *)
Definition normal_r1 (r : T) : T :=
  (((((((r * lit 25090809287301226727 10000000000000000 + lit 33430575583588128105 1000000000000000) * r
       + lit 67265770927008700853 1000000000000000) * r
      + lit 45921953931549871457 1000000000000000) * r
     + lit 13731693765509461125 1000000000000000) * r
    + lit 19715909503065514427 10000000000000000) * r
   + lit 13314166789178437745 100000000000000000) * r
  + lit 3387132872796366608 1000000000000000000)
  / (((((((r * lit 5226495278852854561 1000000000000000 + lit 28729085735721942674 1000000000000000) * r
         + lit 3930789580009271061 100000000000000) * r
        + lit 21213794301586595867 1000000000000000) * r
       + lit 53941960214247511077 10000000000000000) * r
      + lit 6871870074920579083 10000000000000000) * r
     + lit 42313330701600911252 1000000000000000000) * r
    + lit 1 1).
(** src/statistics/distrib/normal.rs:363-393. *)
Definition normal_r2 (r : T) : T :=
  (((((((r * lit 77454501427834140764 100000000000000000000000 + lit 227238449892691845833 10000000000000000000000) * r
       + lit 24178072517745061177 100000000000000000000) * r
      + lit 127045825245236838258 100000000000000000000) * r
     + lit 364784832476320460504 100000000000000000000) * r
    + lit 57694972214606914055 10000000000000000000) * r
   + lit 46303378461565452959 10000000000000000000) * r
  + lit 142343711074968357734 100000000000000000000)
  / (((((((r * lit 105075007164441684324 100000000000000000000000000000 + lit 5475938084995344946 10000000000000000000000) * r
         + lit 151986665636164571966 10000000000000000000000) * r
        + lit 14810397642748007459 100000000000000000000) * r
       + lit 68976733498510000455 100000000000000000000) * r
      + lit 16763848301838038494 10000000000000000000) * r
     + lit 205319162663775882187 100000000000000000000) * r
    + lit 1 1).
(** src/statistics/distrib/normal.rs:395-425. *)
Definition normal_r3 (r : T) : T :=
  (((((((r * lit 201033439929228813265 1000000000000000000000000000 + lit 271155556874348757815 10000000000000000000000000) * r
       + lit 12426609473880784386 10000000000000000000000) * r
      + lit 26532189526576123093 1000000000000000000000) * r
     + lit 29656057182850489123 100000000000000000000) * r
    + lit 17848265399172913358 10000000000000000000) * r
   + lit 54637849111641143699 10000000000000000000) * r
  + lit 66579046435011037772 10000000000000000000)
  / (((((((r * lit 204426310338993978564 100000000000000000000000000000000000 + lit 14215117583164458887 100000000000000000000000000) * r
         + lit 18463183175100546818 1000000000000000000000000) * r
        + lit 7868691311456132591 10000000000000000000000) * r
       + lit 148753612908506148525 10000000000000000000000) * r
      + lit 13692988092273580531 100000000000000000000) * r
     + lit 59983220655588793769 100000000000000000000) * r
    + lit 1 1).
(** src/statistics/distrib/normal.rs:160-208. *)
Definition normal_quantile (d : normal) (p : T) : outcome T :=
  if leb p 0 || leb 1 p then Panic
  else
    let q := p - lit 1 2 in
    if leb (tabs q) (lit 17 40) then
      let r := lit 180625 1000000 - q * q in
      Ret (no_mean d + tsqrt (no_var d) * (q * normal_r1 r))
    else
      let r := if ltb q 0 then p else 1 - p in
      if leb r 0 then Ret 0
      else
        let r := tsqrt (- tln r) in
        let v := if leb r (lit 5 1) then normal_r2 (r - lit 8 5) else normal_r3 (r - lit 5 1) in
        let v := if leb q 0 then - v else v in
        Ret (no_mean d + tsqrt (no_var d) * v).
(** src/statistics/distrib/normal.rs:223-305. *)
Definition normal_mean (d : normal) : T := no_mean d.
(** src/statistics/distrib/normal.rs:241-244. *)
Definition normal_variance (d : normal) : T := no_var d.
(** src/statistics/distrib/normal.rs:260-263. *)
Definition normal_skewness (d : normal) : T := 0.
(** src/statistics/distrib/normal.rs:280-283. *)
Definition normal_median (d : normal) : T := no_mean d.
(** src/statistics/distrib/normal.rs:302-305. *)
Definition normal_entropy (d : normal) : T := lit 2 1 * tpi * te * no_var d.
(** src/statistics/distrib/normal.rs:312-328: the polar method on the list of pairs the generator produces; [None] if the
    list is used up. *)
Fixpoint normal_random (d : normal) (us : list (T * T)) : option T :=
  match us with
  | [] => None
  | (u1, u2) :: us' =>
      let v1 := lit 2 1 * u1 - 1 in
      let v2 := lit 2 1 * u2 - 1 in
      let s := v1 * v1 + v2 * v2 in
      if leb 1 s then normal_random d us'
      else
        let x1 := v1 * tsqrt (- lit 2 1 * tln s / s) in
        Some (x1 * tsqrt (no_var d) + no_mean d)
  end.

(** ** Poisson (src/statistics/distrib/poisson.rs) *)
Record poisson := mkPoisson { po_g : T }.
(** src/statistics/distrib/poisson.rs:43-51. *)
Definition poisson_new (g : T) : outcome poisson := if leb g 0 then Panic else Ret (mkPoisson g).
(** src/statistics/distrib/poisson.rs:72-76, integer arithmetic with overflow checks. *)
Definition poisson_pmf (d : poisson) (x : nat) : outcome T :=
  let! kf := factorial true x in
  Ret (tpow (po_g d) (of_u x) * texp (- po_g d) / of_int kf).
(** src/statistics/distrib/poisson.rs:108-126. *)
Definition poisson_mean (d : poisson) : T := po_g d.
(** src/statistics/distrib/poisson.rs:123-126. *)
Definition poisson_variance (d : poisson) : T := po_g d.

Context {Sp : Special T}.

(** src/statistics/distrib/poisson.rs:93-96. *)
Definition poisson_cdf (d : poisson) (x : nat) : outcome T :=
  let! x1 := ichk u32 (Z.of_nat x + 1) in x_gamma_ur (of_int x1) (po_g d).

(** src/statistics/distrib/normal.rs:142-147. *)
Definition normal_cdf (d : normal) (x : T) : outcome T :=
  let k := (x - no_mean d) / tsqrt (lit 2 1 * no_var d) in
  let! e := x_erf k in Ret (lit 1 2 * (1 + e)).

(** ** Log-normal (src/statistics/distrib/log_normal.rs) *)
Record log_normal := mkLogNormal { ln_mu : T; ln_s2 : T }.
(** src/statistics/distrib/log_normal.rs:40-48. *)
Definition log_normal_new (mu s2 : T) : outcome log_normal :=
  if leb s2 0 then Panic else Ret (mkLogNormal mu s2).
(** src/statistics/distrib/log_normal.rs:77-87. *)
Definition log_normal_pdf (d : log_normal) (x : T) : T :=
  if ltb x 0 then 0
  else
    let z := lit (-1) 2 * tpow (tln x - ln_mu d) (lit 2 1) / ln_s2 d in
    let f := 1 / (x * tsqrt (ln_s2 d * lit 2 1 * tpi)) in
    f * texp z.
(** src/statistics/distrib/log_normal.rs:104-112. *)
Definition log_normal_cdf (d : log_normal) (x : T) : outcome T :=
  if leb x 0 then Ret 0
  else
    let p := (tln x - ln_mu d) / tsqrt (lit 2 1 * ln_s2 d) in
    let! e := x_erf p in Ret (lit 1 2 + lit 1 2 * e).
(** src/statistics/distrib/log_normal.rs:119-127. *)
Definition log_normal_quantile (d : log_normal) (p : T) : outcome T :=
  if leb p 0 || leb 1 p then Panic
  else
    let! std := normal_new 0 1 in
    let! q := normal_quantile std p in
    Ret (texp (ln_mu d + q * tsqrt (ln_s2 d))).
(** src/statistics/distrib/log_normal.rs:142-225. *)
Definition log_normal_mean (d : log_normal) : T := texp (ln_mu d + ln_s2 d / lit 2 1).
(** src/statistics/distrib/log_normal.rs:162-165. *)
Definition log_normal_variance (d : log_normal) : T :=
  (texp (ln_s2 d) - 1) * texp (lit 2 1 * ln_mu d + ln_s2 d).
(** src/statistics/distrib/log_normal.rs:183-186. *)
Definition log_normal_median (d : log_normal) : T := texp (ln_mu d).
(** src/statistics/distrib/log_normal.rs:201-204. *)
Definition log_normal_skewness (d : log_normal) : T :=
  (texp (ln_s2 d) + lit 2 1) * tsqrt (texp (ln_s2 d) - 1).
(** src/statistics/distrib/log_normal.rs:221-225. *)
Definition log_normal_entropy (d : log_normal) : T :=
  let k := tsqrt (ln_s2 d) * texp (ln_mu d + lit 1 2) * tsqrt (lit 2 1 * tpi) in
  tln k / tln (lit 2 1).

(** ** Chi-square (src/statistics/distrib/chisquare.rs) *)
Record chi_square := mkChi { cs_k : T }.
(** src/statistics/distrib/chisquare.rs:42-49. *)
Definition chi_new (df : nat) : outcome chi_square :=
  if ltb (of_u df) 1 then Panic else Ret (mkChi (of_u df)).
(** src/statistics/distrib/chisquare.rs:70-83. *)
Definition chi_pdf (d : chi_square) (x : T) : outcome T :=
  if ltb x 0 then Ret 0
  else
    let! g := x_gamma (cs_k d / lit 2 1) in
    let t1 := 1 / (tpow (lit 2 1) (cs_k d / lit 2 1) * g) in
    let t2 := tpow x (cs_k d / lit 2 1 - 1) * texp (- x / lit 2 1) in
    Ret (t1 * t2).
(** src/statistics/distrib/chisquare.rs:100-131; [(i as f64) + 0.5] is [i + 1/2]. *)
Definition chi_cdf (d : chi_square) (x : T) : outcome T :=
  let t1 := texp (- x / lit 2 1) in
  let kn := as_u32 (cs_k d) in
  let hi := Z.to_nat (as_u32 (cs_k d / lit 2 1)) in
  if (kn mod 2 =? 0)%Z then
    let! sum := for_loop 0 hi (fun i sum =>
      let! g := x_gamma (of_u (S i)) in
      Ret (sum + tpow (x / lit 2 1) (of_u i) / g)) 0 in
    Ret (1 - t1 * sum)
  else
    let! sum := for_loop 0 hi (fun i sum =>
      let! g := x_gamma (of_u i + lit 3 2) in
      Ret (sum + tpow (x / lit 2 1) (of_u i + lit 1 2) / g)) 0 in
    let! e := x_erf (tsqrt (x / lit 2 1)) in
    Ret (e - t1 * sum).
(** src/statistics/distrib/chisquare.rs:134-137. *)
Definition chi_quantile (d : chi_square) (p : T) : outcome T :=
  let! v := x_gamma_ur_inv (cs_k d / lit 2 1) (1 - p) in Ret (lit 2 1 * v).
(** src/statistics/distrib/chisquare.rs:149-190. *)
Definition chi_mean (d : chi_square) : T := cs_k d.
(** src/statistics/distrib/chisquare.rs:164-167. *)
Definition chi_variance (d : chi_square) : T := lit 2 1 * cs_k d.
(** src/statistics/distrib/chisquare.rs:171-174. *)
Definition chi_skewness (d : chi_square) : T := tsqrt (lit 8 1 / cs_k d).
(** src/statistics/distrib/chisquare.rs:178-183. *)
Definition chi_median (d : chi_square) : T :=
  let t := 1 - lit 2 9 / cs_k d in cs_k d * t * t * t.
(** src/statistics/distrib/chisquare.rs:186-190. *)
Definition chi_entropy (d : chi_square) : outcome T :=
  let q := lit 2 1 / cs_k d in
  let! g := x_gamma q in
  let! dg := x_digamma q in
  Ret (q + tln (lit 2 1 * g) + (1 - q) * dg).

(** ** Beta (src/statistics/distrib/beta.rs) *)
Record beta_d := mkBeta { be_p : T; be_q : T }.
(** src/statistics/distrib/beta.rs:38-45. *)
Definition beta_new (p q : T) : outcome beta_d :=
  if ltb p 0 || leb q 0 then Panic else Ret (mkBeta p q).
(** src/statistics/distrib/beta.rs:65-77. *)
Definition beta_pdf (d : beta_d) (x : T) : outcome T :=
  if ltb x 0 then Panic
  else if ltb 1 x then Ret 1
  else
    let! b := x_beta (be_p d) (be_q d) in
    Ret (tpow x (be_p d - 1) * tpow (1 - x) (be_q d - 1) / b).
(** src/statistics/distrib/beta.rs:94-97. *)
Definition beta_cdf (d : beta_d) (x : T) : outcome T := x_beta_inc_reg x (be_p d) (be_q d).
(** src/statistics/distrib/beta.rs:115-149. *)
Definition beta_mean (d : beta_d) : T := be_p d / (be_p d + be_q d).
(** src/statistics/distrib/beta.rs:130-133. *)
Definition beta_variance (d : beta_d) : T :=
  be_p d * be_q d / ((be_p d + be_q d + 1) * tpow (be_p d + be_q d) (lit 2 1)).
(** src/statistics/distrib/beta.rs:145-149. *)
Definition beta_skewness (d : beta_d) : T :=
  lit 2 1 * (be_q d - be_p d) * tsqrt (be_p d + be_q d + 1)
  / ((be_p d + be_q d + lit 2 1) * tsqrt (be_q d * be_p d)).

(** ** Gamma distribution (src/statistics/distrib/gamma.rs) *)
Record gamma_d := mkGammaD { gd_a : T; gd_b : T }.
(** src/statistics/distrib/gamma.rs:39-46. *)
Definition gammad_new (a b : T) : outcome gamma_d :=
  if leb a 0 || leb b 0 then Panic else Ret (mkGammaD a b).
(** src/statistics/distrib/gamma.rs:71-80. *)
Definition gammad_pdf (d : gamma_d) (x : T) : outcome T :=
  if leb x 0 then Panic
  else
    let! g := x_gamma (gd_a d) in
    Ret (tpow (gd_b d) (gd_a d) / g * tpow x (gd_a d - 1) * texp (- gd_b d * x)).
(** src/statistics/distrib/gamma.rs:97-104. *)
Definition gammad_cdf (d : gamma_d) (x : T) : outcome T :=
  if eqb x 0 then Ret 0 else x_gamma_lr (gd_a d) (gd_b d * x).
(** src/statistics/distrib/gamma.rs:113-152. *)
Definition gammad_mean (d : gamma_d) : T := gd_a d / gd_b d.
(** src/statistics/distrib/gamma.rs:128-131. *)
Definition gammad_variance (d : gamma_d) : T := gd_a d / tpow (gd_b d) (lit 2 1).
(** src/statistics/distrib/gamma.rs:134-137. *)
Definition gammad_skewness (d : gamma_d) : T := lit 2 1 / tsqrt (gd_a d).
(** src/statistics/distrib/gamma.rs:147-152. *)
Definition gammad_entropy (d : gamma_d) : outcome T :=
  let! g := x_gamma (gd_a d) in
  let! dg := x_digamma (gd_a d) in
  Ret (gd_a d - tln (gd_b d) + tln g + (1 - gd_a d) * dg).

(** ** Student's t distribution (src/statistics/distrib/t.rs) *)
Record t_d := mkT { td_n : T }.
(** src/statistics/distrib/t.rs:45-53. *)
Definition td_new (n : T) : outcome t_d := if ltb n 0 then Panic else Ret (mkT n).
(** src/statistics/distrib/t.rs:74-79. *)
Definition td_pdf (d : t_d) (x : T) : outcome T :=
  let! g1 := x_gamma ((td_n d + 1) / lit 2 1) in
  let! g2 := x_gamma (td_n d / lit 2 1) in
  Ret (g1 * tpow (1 + x * x / td_n d) (- ((td_n d + 1) / lit 2 1))
       / (tsqrt (td_n d * tpi) * g2)).
(** src/statistics/distrib/t.rs:96-106. *)
Definition td_cdf (d : t_d) (x : T) : outcome T :=
  let k := (td_n d + 1) / lit 2 1 in
  let! f := x_f21 (lit 1 2) k (lit 3 2) (- tpow x (lit 2 1) / td_n d) in
  let! g1 := x_gamma k in
  let! g2 := x_gamma (td_n d / lit 2 1) in
  Ret (lit 1 2 + x * g1 * f / (tsqrt (td_n d * tpi) * g2)).
(** src/statistics/distrib/t.rs:128-135. *)
Definition td_mean (d : t_d) : outcome T := if ltb 1 (td_n d) then Ret 0 else Panic.
(** src/statistics/distrib/t.rs:147-161; [inf] is [f64::INFINITY]. *)
Definition td_variance (inf : T) (d : t_d) : outcome T :=
  if ltb (lit 2 1) (td_n d) then Ret (td_n d / (td_n d - lit 2 1))
  else if ltb 1 (td_n d) then Ret inf else Panic.
(** src/statistics/distrib/t.rs:167-181. *)
Definition td_skewness (d : t_d) : outcome T := if leb (td_n d) (lit 3 1) then Panic else Ret 0.
(** src/statistics/distrib/t.rs:178-181. *)
Definition td_median (d : t_d) : T := 0.
(** src/statistics/distrib/t.rs:184-191. *)
Definition td_entropy (d : t_d) : outcome T :=
  let a := (td_n d + 1) / lit 2 1 in
  let b := td_n d / lit 2 1 in
  let! ga := x_gamma a in
  let! gb := x_gamma b in
  let! bt := x_beta a (lit 1 2) in
  Ret (a * (ga - gb) + tln (tsqrt (td_n d) * bt)).

(** ** Hypothesis tests *)

(** src/statistics/test/chisquare.rs:20-24. *)
Record chi_test := mkChiTest { ct_df : nat; ct_value : T }.
(** src/statistics/test/chisquare.rs:30-86.  The inner loop over [k] in 0..2 is written out. *)
Definition chi_test_cell (n njk nk nj : T) : T :=
  let e := nk * nj / n in tpow (njk - e) (lit 2 1) / e.
(** src/statistics/test/chisquare.rs:30-86. *)
Definition chi_test_vector (x y : list T) : outcome chi_test :=
  if negb (length x =? length y)%nat then Panic
  else
    let! df := usub (length y) 1 in
    let sum_x := fold_left add x 0 in
    let sum_y := fold_left add y 0 in
    let n := sum_x + sum_y in
    let! c := for_loop 0 (length x) (fun j c =>
      let! xj := vget x j in
      let! yj := vget y j in
      let c := c + chi_test_cell n xj (fold_left add x 0) (xj + yj) in
      let c := c + chi_test_cell n yj (fold_left add y 0) (xj + yj) in
      Ret c) 0 in
    Ret (mkChiTest df c).
(** src/statistics/test/chisquare.rs:102-106. *)
Definition chi_test_p (t : chi_test) : outcome T :=
  let! d := chi_new (ct_df t) in
  let! v := chi_cdf d (ct_value t) in Ret (1 - v).

(** src/statistics/test/g.rs:19-23, 35-67. *)
Record g_test := mkGTest { gt_df : nat; gt_g : T }.
(** src/statistics/test/g.rs:35-67. *)
Definition g_test_vector (x y : list T) : outcome g_test :=
  if negb (length x =? length y)%nat then Panic
  else
    let! df := usub (length x) 1 in
    let n := fold_left add y 0 in
    let b := fold_left add x 0 in
    let k := n / b in
    let! g := for_loop 0 (length x) (fun i g =>
      let! xi := vget x i in
      let! yi := vget y i in
      Ret (g + xi * tln (xi / (yi / k)))) 0 in
    Ret (mkGTest df (lit 2 1 * g)).
(** src/statistics/test/g.rs:79-83. *)
Definition g_test_p (t : g_test) : outcome T :=
  let! d := chi_new (gt_df t) in
  let! v := chi_cdf d (gt_g t) in Ret (1 - v).

(** src/statistics/test/t.rs:65-69, 71-90 ([df] always answers 0). *)
Record t_test := mkTTest { tt_p : T; tt_t : T }.
(** src/statistics/test/t.rs:80-83 [df]. *)
Definition t_test_df (t : t_test) : nat := 0.
(** src/statistics/test/t.rs:99-110. *)
Definition t_one_sample (x : list T) (mu0 : T) : outcome t_test :=
  let! no := normal_from_data x in
  let s := tsqrt (normal_variance no) in
  Ret (mkTTest 0 (tsqrt (of_u (length x)) * (normal_mean no - mu0) / s)).
(** src/statistics/test/t.rs:117-142. *)
Definition t_equal_variance (x y : list T) : outcome t_test :=
  let! dx := normal_from_data x in
  let! dy := normal_from_data y in
  let! df := usub (length x + length y) 2 in
  let nomin := of_u (length x - 1) * normal_variance dx + of_u (length y - 1) * normal_variance dy in
  let sp := tsqrt (nomin / of_u df) in
  Ret (mkTTest 0 ((normal_mean dx - normal_mean dy)
                  / (sp * tsqrt (1 / of_u (length x) + 1 / of_u (length y))))).
(** src/statistics/test/t.rs:149-176. *)
Definition t_unequal_variance (x y : list T) : outcome t_test :=
  let nx := length x in
  let ny := length y in
  let! dx := normal_from_data x in
  let! dy := normal_from_data y in
  let sx := normal_variance dx in
  let sy := normal_variance dy in
  let term1 := sx / of_u nx + sy / of_u ny in
  let df := term1 * term1 / (sx * sx / of_u (nx * nx * (nx - 1)) + sy * sy / of_u (ny * ny * (ny - 1))) in
  let sp := tsqrt term1 in
  let t := (normal_mean dx - normal_mean dy) / sp in
  let! td := td_new df in
  let! c := td_cdf td (- tabs t) in
  Ret (mkTTest (lit 2 1 * c) t).

End Model.
Arguments mkBernoulli {T}. Arguments bernoulli : clear implicits.
Arguments mkBinomial {T}. Arguments mkUniform {T}. Arguments mkExponential {T}.
Arguments mkRaised {T}. Arguments mkNormal {T}. Arguments mkPoisson {T}. Arguments mkLogNormal {T}.
Arguments mkChi {T}. Arguments mkBeta {T}. Arguments mkGammaD {T}. Arguments mkT {T}.
Arguments mkChiTest {T}. Arguments mkGTest {T}. Arguments mkTTest {T}.
