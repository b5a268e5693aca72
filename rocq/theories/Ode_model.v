(** Ordinary differential equations: explicit Runge-Kutta steps, the shipped tableaux, the
    fixed-step and the adaptive driver, Adams-Bashforth and the solver named BDF.

    The user's right-hand side [ExplicitODE::func] / [ImplicitODE::func]
    (src/analysis/differential_equation/ordinary/explicit_ode.rs, src/analysis/differential_equation/ordinary/implicit_ode.rs) is an arbitrary
    pure function [T -> vector T -> outcome (vector T)] (it may panic). *)
From Coq Require Import Arith Lia List Bool ZArith Reals SpecFloat.
From Verif Require Import Outcome Scalar Matrix_model Vector_model Int_model.
Import ListNotations.

(** ** Operations of [T: Real] used here *)

(** src/algebra/abstr/real.rs:12-15, 54 ([ceil]) and src/algebra/abstr/cast.rs:51 ([to_u64], then
    [as usize] on a 64-bit target). No laws. *)
Class GOps (T : Type) := { tceil : T -> T; to_usize : T -> nat }.

(** Exact reals: ceil(x) = - floor(-x); the cast truncates towards zero and saturates (only the
    range below 2^64 is meaningful, larger values are not clamped here). *)
Definition R_ceil (x : R) : R := (- IZR (Int_part (- x)))%R.
(** The operations on exact reals (see [R_ceil]). *)
#[global] Instance R_gops : GOps R :=
  {| tceil := R_ceil; to_usize := fun x => Z.to_nat (Int_part x) |}.

(** IEEE binary64: exact ceiling (an integer of at most 53 bits, hence representable). The sign of
    a zero result is not modelled. *)
Definition F64_ceil (x : f64) : f64 :=
  match x with
  | S754_finite s m e =>
      if (0 <=? e)%Z then x
      else let q := (Zpos m / 2 ^ (- e))%Z in
           let ex := (Zpos m mod 2 ^ (- e) =? 0)%Z in
           int_as_f64 (if s then - q else if ex then q else q + 1)%Z
  | _ => x
  end.
(** The operations on f64: src/algebra/abstr/real.rs:54, src/algebra/abstr/cast.rs:51. *)
#[global] Instance F64_gops : GOps f64 :=
  {| tceil := F64_ceil; to_usize := fun x => Z.to_nat (float_as_int u64 x) |}.

Section Lit.
Context {T : Type} {O : Ops T}.
Local Open Scope sc_scope.
(** Float literals: [T::from_f64(p/q)] is modelled as the division of the two integers in [T]
    (src/algebra/abstr/cast.rs:140, 226; exact in exact arithmetic, and for f64 the same rounding
    as the constant expression in the source because both integers are below 2^53). *)
Fixpoint of_pos (p : positive) : T :=
  match p with
  | xH => 1
  | xO p => let y := of_pos p in y + y
  | xI p => let y := of_pos p in 1 + (y + y)
  end.
(** Integer constants (src/algebra/abstr/cast.rs:140, 226). *)
Definition of_Z (z : Z) : T :=
  match z with Z0 => 0 | Zpos p => of_pos p | Zneg p => - of_pos p end.
(** The literal p/q (src/algebra/abstr/cast.rs:140, 226). *)
Definition lit (p : Z) (q : positive) : T := of_Z p / of_pos q.
(** [Real::min]: src/algebra/abstr/real.rs:59-69. *)
Definition tmin (x a : T) : T := if leb x a then x else a.
End Lit.

(** A Butcher tableau; [ta] is the strictly lower triangular part by rows, [tc] starts with the
    node of the second stage. [ButcherFixedStepSize]: src/analysis/differential_equation/ordinary/butcher.rs:20-38. *)
Record tableau (T : Type) := mkTableau { ta : list T; tb : list T; tc : list T }.
Arguments mkTableau {T}. Arguments ta {T}. Arguments tb {T}. Arguments tc {T}.
(** [ButcherAdaptiveStepSize]: src/analysis/differential_equation/ordinary/butcher.rs:68-93. *)
Record tableau2 (T : Type) := mkTableau2 { ta2 : list T; tb2 : list T; tbs2 : list T; tc2 : list T }.
Arguments mkTableau2 {T}. Arguments ta2 {T}. Arguments tb2 {T}. Arguments tbs2 {T}. Arguments tc2 {T}.

Section Ode.
Context {T : Type} {O : Ops T}.
Local Open Scope sc_scope.

(** [ExplicitODE::func] (src/analysis/differential_equation/ordinary/explicit_ode.rs): user code, any function that may panic. *)
Definition rhs := T -> vector T -> outcome (vector T).

(** [l[i_b..i_e]]: slicing panics out of range. *)
Definition sub_slice {A} (l : list A) (ib ie : nat) : outcome (list A) :=
  let! _ := rassert ((ib <=? ie)%nat && (ie <=? length l)%nat) in Ret (firstn (ie - ib) (skipn ib l)).

(** [ws.iter().zip(k.iter()).map(|(w, k)| k * w).fold(Vector::zero(rows), |a, b| a + b)]:
    src/analysis/differential_equation/ordinary/butcher.rs:56, 61, 111, 118, 121. *)
Definition wsum (rows : nat) (ws : list T) (k : list (vector T)) : outcome (vector T) :=
  fold_left (fun acc wk => let! s := acc in vadd s (vmul_scalar (snd wk) (fst wk)))
            (combine ws k) (Ret (vzero rows)).

(** The stage loop: src/analysis/differential_equation/ordinary/butcher.rs:46-59 and 101-116 (the same code). *)
Definition stages (a c : list T) (s : nat) (f : rhs) (t : T) (x : vector T) (h : T)
  : outcome (list (vector T)) :=
  let! k0 := f t x in
  for_loop 1 s (fun j k =>
    let ib := ((j - 1) * j / 2)%nat in
    let! aj := sub_slice a ib (ib + j) in
    let! sum := wsum (rows x) aj k in
    let! cj := vget c (j - 1) in
    let! xj := vadd x (vmul_scalar sum h) in
    let! kj := f (t + cj * h) xj in
    Ret (k ++ [kj])) [k0].

(** [ButcherFixedStepSize::do_step]: src/analysis/differential_equation/ordinary/butcher.rs:43-63. *)
Definition do_step (B : tableau T) (f : rhs) (t : T) (x : vector T) (h : T) : outcome (vector T) :=
  let! k := stages (ta B) (tc B) (length (tb B)) f t x h in
  let! sum := wsum (rows x) (tb B) k in
  vadd x (vmul_scalar sum h).

(** [ButcherAdaptiveStepSize::do_step]: src/analysis/differential_equation/ordinary/butcher.rs:98-125. *)
Definition do_step2 (B : tableau2 T) (f : rhs) (t : T) (x : vector T) (h : T)
  : outcome (vector T * vector T) :=
  let! k := stages (ta2 B) (tc2 B) (length (tb2 B)) f t x h in
  let! sum := wsum (rows x) (tb2 B) k in
  let! x1 := vadd x (vmul_scalar sum h) in
  let! sum_s := wsum (rows x) (tbs2 B) k in
  let! xs1 := vadd x (vmul_scalar sum_s h) in
  Ret (x1, xs1).

(** ** The shipped tableaux (function [default] of each method) *)

(** src/analysis/differential_equation/ordinary/explicit_euler.rs:98-100. *)
Definition explicit_euler : tableau T := mkTableau [] [1] [].
(** src/analysis/differential_equation/ordinary/midpoint.rs:28-30. *)
Definition midpoint : tableau T := mkTableau [lit 1 2] [0; 1] [lit 1 2].
(** src/analysis/differential_equation/ordinary/heun2.rs:103-105. *)
Definition heun2 : tableau T := mkTableau [lit 1 1] [lit 1 2; lit 1 2] [lit 1 1].
(** src/analysis/differential_equation/ordinary/ralston2.rs:27-29. *)
Definition ralston2 : tableau T := mkTableau [lit 2 3] [lit 1 4; lit 3 4] [lit 2 3].
(** src/analysis/differential_equation/ordinary/heun3.rs:101-104. *)
Definition heun3 : tableau T :=
  mkTableau [lit 1 3; 0; lit 2 3] [lit 1 4; 0; lit 3 4] [lit 1 3; lit 2 3].
(** src/analysis/differential_equation/ordinary/kutta3.rs:99-101. *)
Definition kutta3 : tableau T :=
  mkTableau [lit 1 2; - (1); lit 2 1] [lit 1 6; lit 2 3; lit 1 6] [lit 1 2; 1].
(** src/analysis/differential_equation/ordinary/ralston3.rs:27-29. *)
Definition ralston3 : tableau T :=
  mkTableau [lit 1 2; 0; lit 3 4] [lit 2 9; lit 1 3; lit 4 9] [lit 1 2; lit 3 4].
(** src/analysis/differential_equation/ordinary/ssprk3.rs:27-30. *)
Definition ssprk3 : tableau T :=
  mkTableau [1; lit 1 4; lit 1 4] [lit 1 6; lit 1 6; lit 2 3] [1; lit 1 2].
(** src/analysis/differential_equation/ordinary/rungekutta4.rs:28-32. *)
Definition rungekutta4 : tableau T :=
  mkTableau [lit 1 2; 0; lit 1 2; 0; 0; 1] [lit 1 6; lit 1 3; lit 1 3; lit 1 6] [lit 1 2; lit 1 2; 1].
(** src/analysis/differential_equation/ordinary/kutta38.rs:100-104. *)
Definition kutta38 : tableau T :=
  mkTableau [lit 1 3; lit (-1) 3; 1; 1; - (1); 1] [lit 1 8; lit 3 8; lit 3 8; lit 1 8]
            [lit 1 3; lit 2 3; 1].
(** src/analysis/differential_equation/ordinary/ralston4.rs:27-32; [s5] is the constant SQRT5. *)
Definition ralston4 (s5 : T) : tableau T :=
  mkTableau [lit 2 5;
             (of_Z (-2889) + of_Z 1428 * s5) / of_Z 1024; (of_Z 3785 - of_Z 1620 * s5) / of_Z 1024;
             (of_Z (-3365) + of_Z 2094 * s5) / of_Z 6040; (of_Z (-975) - of_Z 3046 * s5) / of_Z 2552;
             (of_Z 467040 + of_Z 203968 * s5) / of_Z 240845]
            [(of_Z 263 + of_Z 24 * s5) / of_Z 1812; (of_Z 125 - of_Z 1000 * s5) / of_Z 3828;
             of_Z 1024 * (of_Z 3356 + of_Z 1623 * s5) / of_Z 5924787;
             (of_Z 30 - of_Z 4 * s5) / of_Z 123]
            [lit 2 5; (of_Z 14 - of_Z 3 * s5) / of_Z 16; 1].

(** src/analysis/differential_equation/ordinary/fehlberg12.rs:112-116. *)
Definition fehlberg12 : tableau2 T :=
  mkTableau2 [lit 1 2; lit 1 256; lit 255 256]
    [lit 1 512; lit 255 256; lit 1 512] [lit 1 256; lit 255 256; 0] [lit 1 2; 1].
(** src/analysis/differential_equation/ordinary/bogackishampine23.rs:87-92. *)
Definition bogacki_shampine23 : tableau2 T :=
  mkTableau2 [lit 1 2; 0; lit 3 4; lit 2 9; lit 1 3; lit 4 9]
    [lit 2 9; lit 1 3; lit 4 9; 0] [lit 7 24; lit 1 4; lit 1 3; lit 1 8] [lit 1 2; lit 3 4; 1].
(** src/analysis/differential_equation/ordinary/fehlberg45.rs:111-118. *)
Definition fehlberg45 : tableau2 T :=
  mkTableau2
    [lit 1 4;
     lit 3 32; lit 9 32;
     lit 1932 2197; lit (-7200) 2197; lit 7296 2197;
     lit 439 216; lit (-8) 1; lit 3680 513; lit (-845) 4104;
     lit (-8) 27; lit 2 1; lit (-3544) 2565; lit 1859 4104; lit (-11) 40]
    [lit 16 135; 0; lit 6656 12825; lit 28561 56430; lit (-9) 50; lit 2 55]
    [lit 25 216; 0; lit 1408 2565; lit 2197 4104; lit (-1) 5; 0]
    [lit 1 4; lit 3 8; lit 12 13; 1; lit 1 2].
(** src/analysis/differential_equation/ordinary/cashkarp45.rs:109-116. *)
Definition cash_karp45 : tableau2 T :=
  mkTableau2
    [lit 1 5;
     lit 3 40; lit 9 40;
     lit 3 10; lit (-9) 10; lit 6 5;
     lit (-11) 54; lit 5 2; lit (-70) 27; lit 35 27;
     lit 1631 55296; lit 175 512; lit 575 13824; lit 44275 110592; lit 253 4096]
    [lit 2825 27648; 0; lit 18575 48384; lit 13525 55296; lit 277 14336; lit 1 4]
    [lit 37 378; 0; lit 250 621; lit 125 594; 0; lit 512 1771]
    [lit 1 5; lit 3 10; lit 3 5; 1; lit 7 8].
(** src/analysis/differential_equation/ordinary/dormandprince.rs:107-115. *)
Definition dormand_prince : tableau2 T :=
  mkTableau2
    [lit 1 5;
     lit 3 40; lit 9 40;
     lit 44 45; lit (-56) 15; lit 32 9;
     lit 19372 6561; lit (-25360) 2187; lit 64448 6561; lit (-212) 729;
     lit 9017 3168; lit (-355) 33; lit 46732 5247; lit 49 176; lit (-5103) 18656;
     lit 35 384; 0; lit 500 1113; lit 125 192; lit (-2187) 6784; lit 11 84]
    [lit 35 384; 0; lit 500 1113; lit 125 192; lit (-2187) 6784; lit 11 84; 0]
    [lit 5179 57600; 0; lit 7571 16695; lit 393 640; lit (-92097) 339200; lit 187 2100; lit 1 40]
    [lit 1 5; lit 3 10; lit 4 5; lit 8 9; 1; 1].

(** The documented orders: function [order] of src/analysis/differential_equation/ordinary/explicit_euler.rs:117-120, src/analysis/differential_equation/ordinary/midpoint.rs:47-50,
    src/analysis/differential_equation/ordinary/heun2.rs:122-125, src/analysis/differential_equation/ordinary/ralston2.rs:46-49, src/analysis/differential_equation/ordinary/heun3.rs:121-124, src/analysis/differential_equation/ordinary/kutta3.rs:118-121, src/analysis/differential_equation/ordinary/ralston3.rs:46-49,
    src/analysis/differential_equation/ordinary/ssprk3.rs:47-50, src/analysis/differential_equation/ordinary/rungekutta4.rs:49-52, src/analysis/differential_equation/ordinary/kutta38.rs:121-124, src/analysis/differential_equation/ordinary/ralston4.rs:49-52. *)
Definition explicit_euler_order := 1%nat. Definition midpoint_order := 2%nat.
(** Orders (continued): same functions as above. *)
Definition heun2_order := 2%nat. Definition ralston2_order := 2%nat.
(** Orders (continued): same functions as above. *)
Definition heun3_order := 3%nat. Definition kutta3_order := 3%nat.
(** Orders (continued): same functions as above. *)
Definition ralston3_order := 3%nat. Definition ssprk3_order := 3%nat.
(** Orders (continued): same functions as above. *)
Definition rungekutta4_order := 4%nat. Definition kutta38_order := 4%nat.
(** Orders (continued): same functions as above. *)
Definition ralston4_order := 4%nat.
(** The embedded pairs: src/analysis/differential_equation/ordinary/fehlberg12.rs:137-140, src/analysis/differential_equation/ordinary/bogackishampine23.rs:113-116,
    src/analysis/differential_equation/ordinary/fehlberg45.rs:139-142, src/analysis/differential_equation/ordinary/cashkarp45.rs:137-140, src/analysis/differential_equation/ordinary/dormandprince.rs:136-139. *)
Definition fehlberg12_order := (2%nat, 1%nat).
(** Orders of the pairs (continued): same functions as above. *)
Definition bogacki_shampine23_order := (3%nat, 2%nat).
(** Orders of the pairs (continued): same functions as above. *)
Definition fehlberg45_order := (5%nat, 4%nat).
(** Orders of the pairs (continued): same functions as above. *)
Definition cash_karp45_order := (5%nat, 4%nat).
(** Orders of the pairs (continued): same functions as above. *)
Definition dormand_prince_order := (5%nat, 4%nat).

(** ** Fixed-step driver *)
Context {G : GOps T}.

(** A one-step method with the problem already plugged in: [method.do_step(prob, t, x, h)]. *)
Definition stepfn := T -> vector T -> T -> outcome (vector T).

(** [FixedStepper::new]: src/analysis/differential_equation/ordinary/fixed_stepper.rs:31-38 (and 110-117). *)
Definition fixed_new (step_size : T) : outcome T :=
  if leb step_size 0 then Panic else Ret step_size.

(** [FixedStepper::solve] / [ImplicitFixedStepper::solve]: src/analysis/differential_equation/ordinary/fixed_stepper.rs:40-77, 119-157 (the
    same code). The loop state is (t_vec, res_vec, t_n, x_n). *)
Definition fixed_solve (step_size : T) (step : stepfn) (t_start t_stop : T) (init : vector T)
  : outcome (list T * list (vector T)) :=
  if ltb t_stop t_start then Panic else
  let limit := tceil ((t_stop - t_start) / step_size) + 1 in
  let steps := to_usize limit in
  let! st := for_loop 0 steps (fun _ st =>
    let '(tv, xv, tn, xn) := st in
    let h := tmin step_size (t_stop - tn) in
    let tv := tv ++ [tn] in
    let xv := xv ++ [xn] in
    let! xn' := step tn xn h in
    Ret (tv, xv, tn + h, xn')) ([], [], t_start, init) in
  let '(tv, xv, _, _) := st in Ret (tv, xv).

(** ** Adams-Bashforth: src/analysis/differential_equation/ordinary/adamsbashforth.rs, and the solver named BDF: src/analysis/differential_equation/ordinary/bdf.rs *)

(** [prob.func(&t[n-i], &x[n-i]) * T::from_f64(c)]: src/analysis/differential_equation/ordinary/adamsbashforth.rs:239-240, 255-257, .. ;
    [x.len() - 1] and [n - i] are usize subtractions, indexing panics out of range. *)
Definition ab_term (f : rhs) (t : list T) (x : list (vector T)) (n i : nat) (c : T) : outcome (vector T) :=
  let! m := usub n i in
  let! xi := vget x m in
  let! ti := vget t m in
  let! fi := f ti xi in
  Ret (vmul_scalar fi c).

(** [x_n + ((.. + ..) * h)]: src/analysis/differential_equation/ordinary/adamsbashforth.rs:238-241. The terms are summed from the left. *)
Fixpoint ab_sum (f : rhs) (t : list T) (x : list (vector T)) (n i : nat) (cs : list T) (acc : vector T)
  : outcome (vector T) :=
  match cs with
  | [] => Ret acc
  | c :: cs => let! w := ab_term f t x n i c in
               let! acc := vadd acc w in
               ab_sum f t x n (S i) cs acc
  end.

(** [step_s1]: src/analysis/differential_equation/ordinary/adamsbashforth.rs:221-228, src/analysis/differential_equation/ordinary/bdf.rs:231-238. *)
Definition ab_step1 (f : rhs) (t : list T) (x : list (vector T)) (h : T) : outcome (vector T) :=
  let! n := usub (length x) 1 in
  let! xn := vget x n in
  let! tn := vget t n in
  let! fn := f tn xn in
  vadd xn (vmul_scalar fn h).

(** [step_s2] .. [step_s5] with their coefficients: src/analysis/differential_equation/ordinary/adamsbashforth.rs:230-302, src/analysis/differential_equation/ordinary/bdf.rs:240-312.
    The indexing order differs from the source only for lists that are too short, where both
    panic. *)
Definition ab_stepk (cs : list T) (f : rhs) (t : list T) (x : list (vector T)) (h : T)
  : outcome (vector T) :=
  match cs with
  | [] => Panic
  | c0 :: cs =>
      let! n := usub (length x) 1 in
      let! xn := vget x n in
      let! s0 := ab_term f t x n 0 c0 in
      let! s := ab_sum f t x n 1 cs s0 in
      vadd xn (vmul_scalar s h)
  end.
(** src/analysis/differential_equation/ordinary/adamsbashforth.rs:230-242 [step_s2] coefficients. *)
Definition ab2 : list T := [lit 3 2; lit (-1) 2].
(** src/analysis/differential_equation/ordinary/adamsbashforth.rs:244-259 [step_s3] coefficients. *)
Definition ab3 : list T := [lit 23 12; lit (-16) 12; lit 5 12].
(** src/analysis/differential_equation/ordinary/adamsbashforth.rs:261-279 [step_s4] coefficients. *)
Definition ab4 : list T := [lit 55 24; lit (-59) 24; lit 37 24; lit (-9) 24].
(** src/analysis/differential_equation/ordinary/adamsbashforth.rs:281-302 [step_s5] coefficients. *)
Definition ab5 : list T := [lit 1901 720; lit (-2774) 720; lit 2616 720; lit (-1274) 720; lit 251 720].

(** [step_s1] .. [step_s5] by number: src/analysis/differential_equation/ordinary/adamsbashforth.rs:193-201. *)
Definition ab_step (k : nat) (f : rhs) (t : list T) (x : list (vector T)) (h : T) : outcome (vector T) :=
  match k with
  | 1 => ab_step1 f t x h
  | 2 => ab_stepk ab2 f t x h
  | 3 => ab_stepk ab3 f t x h
  | 4 => ab_stepk ab4 f t x h
  | 5 => ab_stepk ab5 f t x h
  | _ => Panic
  end.

(** [BDF::step_s1] .. [step_s6]: src/analysis/differential_equation/ordinary/bdf.rs:202-211, 231-335; [step_s6] (314-335) repeats the
    coefficients of [step_s5]. *)
Definition bdf_step (k : nat) (f : rhs) (t : list T) (x : list (vector T)) (h : T) : outcome (vector T) :=
  match k with
  | 6 => ab_stepk ab5 f t x h
  | _ => ab_step k f t x h
  end.

(** [AdamsBashforth::new] / [BDF::new]: src/analysis/differential_equation/ordinary/adamsbashforth.rs:96-108 (kmax = 5), src/analysis/differential_equation/ordinary/bdf.rs:95-107
    (kmax = 6). *)
Definition ms_new (kmax k : nat) (step_size : T) : outcome (nat * T) :=
  if (k =? 0)%nat || (kmax <? k)%nat then Panic
  else if leb step_size 0 then Panic else Ret (k, step_size).

Section Multistep.
Variable step : nat -> rhs -> list T -> list (vector T) -> T -> outcome (vector T).
Variable f : rhs.
Variables step_size t_stop : T.

(** One integration step of order j appended to the history: src/analysis/differential_equation/ordinary/adamsbashforth.rs:155-160, 206-212. *)
Definition ms_push (j : nat) (st : list T * list (vector T) * T) : outcome (list T * list (vector T) * T) :=
  let '(tv, xv, tn) := st in
  let h := tmin step_size (t_stop - tn) in
  let! xn := step j f tv xv h in
  let tn := tn + h in
  Ret (tv ++ [tn], xv ++ [xn], tn).

(** The main loop: src/analysis/differential_equation/ordinary/adamsbashforth.rs:203-213, src/analysis/differential_equation/ordinary/bdf.rs:213-223; [None] when the fuel is exhausted. *)
Fixpoint ms_loop (fuel k : nat) (st : list T * list (vector T) * T)
  : outcome (option (list T * list (vector T))) :=
  let '(tv, xv, tn) := st in
  if ltb (lit 1 10000000000) (tabs (tn - t_stop)) then
    match fuel with
    | 0%nat => Ret None
    | S fuel => let! st := ms_push k st in ms_loop fuel k st
    end
  else Ret (Some (tv, xv)).

(** [solve]: src/analysis/differential_equation/ordinary/adamsbashforth.rs:129-216, src/analysis/differential_equation/ordinary/bdf.rs:128-226. The start-up [if self.k >= j+1] blocks
    (153-191) run for j = 1 .. k-1. The unused capacity computation (144-145) is left out. *)
Definition ms_solve (fuel k : nat) (t_start : T) (init : vector T)
  : outcome (option (list T * list (vector T))) :=
  if ltb t_stop t_start then Panic else
  let! st := for_loop 1 k ms_push ([t_start], [init], t_start) in
  ms_loop fuel k st.
End Multistep.

(** src/analysis/differential_equation/ordinary/adamsbashforth.rs:129-216 [solve]. *)
Definition ab_solve := ms_solve ab_step.
(** src/analysis/differential_equation/ordinary/bdf.rs:128-226 [solve]. *)
Definition bdf_solve := ms_solve bdf_step.

(** ** Adaptive driver: src/analysis/differential_equation/ordinary/adaptive_stepper.rs *)
Context {P : POps T}.

(** [ProportionalControl]: src/analysis/differential_equation/ordinary/adaptive_stepper.rs:16-30, 56-72. *)
Record pcontrol := mkPC {
  n_max : nat; h_0 : T; fac : T; fac_min : T; fac_max : T; abs_tol : T; rel_tol : T }.

(** [Default]: src/analysis/differential_equation/ordinary/adaptive_stepper.rs:34-44 ([10e-6] is 1/100000, [10e-3] is 1/100). *)
Definition pc_default : pcontrol :=
  mkPC 1000 (lit 1 50) (lit 4 5) (lit 1 1000) (lit 3 1) (lit 1 100000) (lit 1 100).

(** [set_abs_tol], [set_rel_tol]: src/analysis/differential_equation/ordinary/adaptive_stepper.rs:94-118. *)
Definition set_abs_tol (p : pcontrol) (a : T) : outcome pcontrol :=
  if ltb a 0 then Panic
  else Ret (mkPC (n_max p) (h_0 p) (fac p) (fac_min p) (fac_max p) a (rel_tol p)).
(** [set_rel_tol]: src/analysis/differential_equation/ordinary/adaptive_stepper.rs:111-118. *)
Definition set_rel_tol (p : pcontrol) (r : T) : outcome pcontrol :=
  if ltb r 0 then Panic
  else Ret (mkPC (n_max p) (h_0 p) (fac p) (fac_min p) (fac_max p) (abs_tol p) r).

(** [calc_error]: src/analysis/differential_equation/ordinary/adaptive_stepper.rs:206-224. *)
Definition calc_error (p : pcontrol) (y y_hat : vector T) : outcome T :=
  let n := cols y in
  let! sum := for_loop 0 n (fun i sum =>
    let! yi := vvget y i in
    let! yh := vvget y_hat i in
    let sc := abs_tol p + tabs yi * rel_tol p in
    let k := (yi - yh) / sc in
    Ret (sum + k * k)) 0 in
  Ret (tsqrt (sum / of_Z (Z.of_nat n))).

(** The step-size factor: src/analysis/differential_equation/ordinary/adaptive_stepper.rs:184-194. *)
Definition step_factor (p : pcontrol) (l err : T) : T :=
  let s := fac p * tpow (1 / err) l in
  let s := if ltb s (fac_min p) then fac_min p else s in
  if ltb (fac_max p) s then fac_max p else s.

(** An embedded method with the problem plugged in. *)
Definition stepfn2 := T -> vector T -> T -> outcome (vector T * vector T).

(** The loop: src/analysis/differential_equation/ordinary/adaptive_stepper.rs:166-198; [None] when the fuel is exhausted. State: (t_vec,
    res_vec, t_n, x_n, h, n). *)
Fixpoint adapt_loop (p : pcontrol) (step : stepfn2) (l t_stop : T) (fuel : nat)
  (tv : list T) (xv : list (vector T)) (tn : T) (xn : vector T) (h : T) (n : nat)
  : outcome (option (list T * list (vector T) * T)) :=
  if (n <? n_max p)%nat && ltb tn t_stop then
    match fuel with
    | 0%nat => Ret None
    | S fuel =>
        let h := tmin h (t_stop - tn) in
        let! xs := step tn xn h in
        let! err := calc_error p (fst xs) (snd xs) in
        let acc := leb err 1 in
        let tn' := if acc then tn + h else tn in
        let xn' := if acc then fst xs else xn in
        let tv' := if acc then tv ++ [tn'] else tv in
        let xv' := if acc then xv ++ [xn'] else xv in
        let n' := if acc then S n else n in
        let h' := if negb (eqb err 0) then step_factor p l err * h else h in
        adapt_loop p step l t_stop fuel tv' xv' tn' xn' h' n'
    end
  else Ret (Some (tv, xv, tn)).

(** [solve]: src/analysis/differential_equation/ordinary/adaptive_stepper.rs:136-204; the outer option is the fuel, the inner one is the
    Rust [Result] ([None] is [Err]). [q] is [order().0]. *)
Definition adapt_solve (p : pcontrol) (step : stepfn2) (q : nat) (fuel : nat)
  (t_start t_stop : T) (init : vector T) : outcome (option (option (list T * list (vector T)))) :=
  if ltb t_stop t_start then Panic else
  let l := 1 / (of_Z (Z.of_nat q) + 1) in
  let! r := adapt_loop p step l t_stop fuel [t_start] [init] t_start init (h_0 p) 0 in
  match r with
  | None => Ret None
  | Some (tv, xv, tn) => if ltb tn t_stop then Ret (Some None) else Ret (Some (Some (tv, xv)))
  end.

End Ode.
