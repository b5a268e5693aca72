(** Property theorems C114: the Euclidean norm of a vector in f64.

    Reading guide.  [fvalid]: a value of type f64; [ffin]: neither infinite nor NaN; [fval]: its real value; [gam n] = (1 + 2^-53)^n - 1;
    [eta64] = 2^-1075.  [enorm n f] is the square root of the sum of f(i)^2, i < n, over the reals.  [pw] stands for Rust's powf, which is not specified
    to the last bit: [square_acc k], [root_acc j] say that powf(x, 2) and powf(x, 1/2) have relative errors gam k and gam j, [square_total],
    [root_total] that they do not overflow on moderate arguments.  [root_pow]: the rounded product and the rounded square root. *)
From Coq Require Import ZArith Arith Reals Lra Lia List SpecFloat.
From Flocq Require Import Core IEEE754.BinarySingleNaN.
From Verif Require Import Outcome Scalar RealOps Matrix_model Vector_model Decomp_model Int_model Ode_model Matrix_spec Decomp_spec F64_spec F64Cplx_spec F64Stat_spec F64Norm_spec
  F64NewtonEx_proofs F64Norm_proofs DecompProps_proofs.
Import ListNotations.
Local Open Scope R_scope.

(** * C114 *)
(** eucl_norm never panics.  A finite result has a relative error of about n + k + j units roundoff, up to underflow of the squares; in particular the norm of
    a vector with an infinite or NaN component is not finite. *)
Theorem C114_norm : forall pw k j (v : vector f64) n g,
  square_acc k (fun x => pw x (@two f64 (F64_pops pw))) -> root_acc j (fun x => pw x (@half f64 (F64_pops pw))) ->
  is_col v n g \/ is_row v n g -> (forall i, (i < n)%nat -> fvalid (g i)) ->
  exists s, @veucl_norm f64 F64_ops (F64_pops pw) v = Ret s /\ fvalid s /\
    (ffin s = true -> let N := enorm n (fun i => fval (g i)) in (forall i, (i < n)%nat -> ffin (g i) = true) /\
      Rabs (fval s - N) <= gam (n - 1 + k + j) * N + (1 + gam j) * sqrt (INR n * eta64 * (1 + gam (n - 1)))).
Proof. exact norm_err. Qed.
Print Assumptions C114_norm.
(** The result is finite if all components are at most 2^500 in modulus and there are at most 2^20 of them. *)
Theorem C114_finite : forall pw (v : vector f64) n g,
  square_total (fun x => pw x (@two f64 (F64_pops pw))) -> root_total (fun x => pw x (@half f64 (F64_pops pw))) ->
  (forall x, fvalid x -> fvalid (pw x (@two f64 (F64_pops pw)))) ->
  is_col v n g \/ is_row v n g -> (forall i, (i < n)%nat -> fgood (g i) /\ Rabs (fval (g i)) <= bpow radix2 500) -> INR n <= bpow radix2 20 ->
  exists s, @veucl_norm f64 F64_ops (F64_pops pw) v = Ret s /\ ffin s = true.
Proof. exact norm_fin. Qed.
Print Assumptions C114_finite.
(** The assumptions on powf hold for correctly rounded operations. *)
Theorem C114_ieee : square_acc 1 (fun x => root_pow x (@two f64 (F64_pops root_pow))) /\ root_acc 1 (fun x => root_pow x (@half f64 (F64_pops root_pow))) /\
  square_total (fun x => root_pow x (@two f64 (F64_pops root_pow))) /\ root_total (fun x => root_pow x (@half f64 (F64_pops root_pow))).
Proof. exact norm_pow. Qed.
Print Assumptions C114_ieee.
(** The squares are not scaled: the norm of the vector (2^512) is infinite and the norm of the vector (2^-538) is 0. *)
Theorem C114_range_refuted :
  (fgood big_512 /\ fval big_512 = bpow radix2 512 /\ @veucl_norm f64 F64_ops (F64_pops root_pow) (mkMatrix 1 1 [big_512]) = Ret (S754_infinity false)) /\
  (fgood tiny_538 /\ fval tiny_538 = bpow radix2 (-538) /\ @veucl_norm f64 F64_ops (F64_pops root_pow) (mkMatrix 1 1 [tiny_538]) = Ret zero).
Proof. exact norm_range. Qed.
Print Assumptions C114_range_refuted.
(** (1/3, -2/7, 5): all hypotheses hold, and the result is finite. *)
Example C114_example : let l : list f64 := [lit 1 3; lit (-2) 7; lit 5 1] in is_col (mkMatrix 3 1 l) 3 (fun i => nth i l zero) /\
  (forall i, (i < 3)%nat -> fgood (nth i l zero)) /\ exists s, @veucl_norm f64 F64_ops (F64_pops root_pow) (mkMatrix 3 1 l) = Ret s /\ fgood s /\ 5 < fval s < 51 / 10.
Proof.
  cbv zeta. split; [now apply is_col_list|]. split.
  - intros i Hi. destruct i as [|[|[|i]]]; [..|lia]; split; vm_compute; reflexivity.
  - eexists. split; [vm_compute; reflexivity|]. split; [split; reflexivity|]. unfold fval, SF2R, F2R, bpow. cbn -[Rmult Rinv IZR]. lra.
Qed.
