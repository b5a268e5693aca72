(** Property theorems C29-C32: polynomials.

    Reading guide.  A polynomial is its list of coefficients, lowest degree first (never empty: the
    constructor panics on an empty list).  [coefn p i] is the coefficient of x^i (zero beyond the
    list), [pval p x] is the sum of c_i x^i, [npow] is repeated multiplication, [prodn n f] the
    product of f 0 ... f (n-1), [prod_coef p q k] the coefficient of x^k in the product,
    [negligible eps c] is |c| <= eps, [exact_eps eps] says only zero is negligible,
    [reduced eps p s]: s is p without its trailing negligible coefficients (Poly_spec.v). *)
From Coq Require Import Arith List Bool Lia Reals Lra ZArith QArith Qcanon.
From Verif Require Import Outcome Scalar Matrix_spec Poly_model Poly_spec Poly_proofs PolyDiv_proofs QcCompute.
Import ListNotations.
Local Open Scope nat_scope.

(** * C29 *)

(** Construction: [from_coef] panics exactly on an empty list and keeps the coefficients; [degree] is one less
    than their number (trailing zeros count) and panics on an empty list, which no constructor produces. *)
Theorem C29_from_coef : forall (T : Type) (c : list T),
  pfrom_coef c = match c with [] => Panic | _ => Ret c end /\ pdegree c = match c with [] => Panic | _ :: t => Ret (length t) end.
Proof. intros T [|x c]; split; try reflexivity. unfold pdegree, usub. cbn. now rewrite Nat.sub_0_r. Qed.
Print Assumptions C29_from_coef.

(** Horner evaluation is the sum of c_i x^i. *)
Theorem C29_eval : forall (T : Type) (O : Ops T), RingLaws O -> forall p x, peval p x = pval p x.
Proof. intros T O L p x. apply (peval_pval L). Qed.
Print Assumptions C29_eval.

(** The order of the operations, for any scalars: c_0 + x (c_1 + x (c_2 + ...)). *)
Theorem C29_eval_horner : forall (T : Type) (O : Ops T) c p (x : T),
  peval [] x = zero /\ peval (c :: p) x = add c (mul x (peval p x)).
Proof. intros T O c p x. split; [reflexivity|apply peval_cons]. Qed.
Print Assumptions C29_eval_horner.

Theorem C29_add : forall (T : Type) (O : Ops T), RingLaws O -> forall p q, p <> [] -> q <> [] ->
  exists s, padd p q = Ret s /\ length s = Nat.max (length p) (length q) /\
    (forall i, coefn s i = add (coefn p i) (coefn q i)) /\ (forall x, peval s x = add (peval p x) (peval q x)).
Proof.
  intros T O L p q Hp Hq. destruct (padd_ok L p q Hp Hq) as (s & E & Hl & Hs). exists s. split; [exact E|]. split; [exact Hl|]. split; [exact Hs|].
  intros x. destruct (padd_eval L p q x Hp Hq) as (s' & E' & H). rewrite E in E'. injection E' as <-. exact H.
Qed.
Print Assumptions C29_add.

Theorem C29_mul : forall (T : Type) (O : Ops T), RingLaws O -> forall p q, p <> [] -> q <> [] ->
  exists s, pmul p q = Ret s /\ length s = length p + length q - 1 /\
    (forall k, coefn s k = prod_coef p q k) /\ (forall x, peval s x = mul (peval p x) (peval q x)).
Proof.
  intros T O L p q Hp Hq. destruct (pmul_ok L p q Hp Hq) as (s & E & Hl & Hs). exists s. split; [exact E|]. split; [exact Hl|]. split; [exact Hs|].
  intros x. destruct (pmul_eval L p q x Hp Hq) as (s' & E' & H). rewrite E in E'. injection E' as <-. exact H.
Qed.
Print Assumptions C29_mul.

Theorem C29_neg : forall (T : Type) (O : Ops T), RingLaws O -> forall p, p <> [] ->
  exists s, pneg p = Ret s /\ length s = length p /\ (forall i, coefn s i = neg (coefn p i)) /\ (forall x, peval s x = neg (peval p x)).
Proof. intros T O L p Hp. exact (pneg_ok L p Hp). Qed.
Print Assumptions C29_neg.

(** Subtraction when the right operand is not longer. *)
Theorem C29_sub : forall (T : Type) (O : Ops T), RingLaws O -> forall p q, p <> [] -> q <> [] -> length q <= length p ->
  exists s, psub p q = Ret s /\ (forall i, coefn s i = sub (coefn p i) (coefn q i)) /\ (forall x, peval s x = sub (peval p x) (peval q x)).
Proof.
  intros T O L p q Hp Hq Hl. destruct (psub_ok L p q Hp Hq) as (s & E & _ & Hs). exists s. split; [exact E|].
  assert (Hc : forall i, coefn s i = sub (coefn p i) (coefn q i)).
  { intros i. rewrite Hs. destruct (Nat.ltb_spec i (length p)); [reflexivity|]. rewrite (coefn_out p), (coefn_out q) by lia.
    rewrite (Rsub_def (rl_ring O L)), (Ropp_def (rl_ring O L)). reflexivity. }
  split; [exact Hc|]. intros x. destruct (psub_eval L p q x Hp Hq) as (s' & E' & H). rewrite E in E'. injection E' as <-.
  rewrite H, (sumn_zero_ext_plus L (length q)); [reflexivity|]. intros i Hi. destruct (Nat.ltb_spec i (length p)); [reflexivity|lia].
Qed.
Print Assumptions C29_sub.

(** In general the result is p - q exactly when the coefficients of q beyond p cancel when doubled
    (they are copied with the wrong sign). *)
Theorem C29_sub_iff : forall (T : Type) (O : Ops T), RingLaws O -> forall p q, p <> [] -> q <> [] ->
  exists s, psub p q = Ret s /\
    ((forall i, coefn s i = sub (coefn p i) (coefn q i)) <-> (forall i, length p <= i -> add (coefn q i) (coefn q i) = zero)).
Proof. intros T O L. exact (psub_iff L). Qed.
Print Assumptions C29_sub_iff.

(** 1 - (1 + x) evaluates to x instead of -x. *)
Theorem C29_sub_refuted : ~ (forall (p q : list Qc), p <> [] -> q <> [] ->
  exists s, psub p q = Ret s /\ forall x, peval s x = sub (peval p x) (peval q x)).
Proof.
  intros H. destruct (H [1%Qc] [1%Qc; 1%Qc]) as (s & E & Hs); [discriminate|discriminate|].
  vm_compute in E. injection E as <-. specialize (Hs 1%Qc). vm_compute in Hs. discriminate.
Qed.
Print Assumptions C29_sub_refuted.

Example C29_example : padd [qz 1; qz 2] [qz 3; qz 4; qz 5] = Ret [qz 4; qz 6; qz 5] /\
  pmul [qz 1; qz 2] [qz 3; qz 4] = Ret [qz 3; qz 10; qz 8] /\ peval [qz 1; qz 2; qz 3] (qz 2) = qz 17.
Proof. vm_compute. auto. Qed.

(** * C30 *)
Theorem C30_from_root : forall (T : Type) (O : Ops T), RingLaws O -> forall r, r <> [] ->
  exists s, pfrom_root r = Ret s /\ pdegree s = Ret (length r) /\ coefn s (length r) = one /\
    forall x, peval s x = prodn (length r) (fun i => sub x (coefn r i)).
Proof.
  intros T O L r Hr. destruct (pfrom_root_vec L r Hr) as (s & E & Hl & H1 & Hx). exists s. split; [exact E|]. split; [|split; assumption].
  unfold pdegree. rewrite Hl. rewrite usub_ok by lia. f_equal. lia.
Qed.
Print Assumptions C30_from_root.

(** So every given root is a root. *)
Theorem C30_roots : forall (T : Type) (O : Ops T), RingLaws O -> forall r i, i < length r ->
  exists s, pfrom_root r = Ret s /\ peval s (coefn r i) = zero.
Proof.
  intros T O L r i Hi. destruct (pfrom_root_vec L r) as (s & E & _ & _ & Hx); [intro; subst r; cbn in Hi; lia|].
  exists s. split; [exact E|]. rewrite Hx. apply (prodn_zero L (length r) _ i Hi).
  rewrite (Rsub_def (rl_ring O L)). apply (Ropp_def (rl_ring O L)).
Qed.
Print Assumptions C30_roots.

Theorem C30_empty : forall (T : Type) (O : Ops T), pfrom_root ([] : list T) = Panic.
Proof. reflexivity. Qed.
Print Assumptions C30_empty.

Example C30_example : pfrom_root [qz 1; qz 2; qz 3] = Ret [qz (-6); qz 11; qz (-6); qz 1].
Proof. vm_compute. reflexivity. Qed.

(** * C31 *)

(** reduce drops the trailing negligible coefficients and nothing else. *)
Theorem C31_reduce : forall (T : Type) (O : Ops T) eps (p : list T), p <> [] -> exists s, preduce eps p = Ret s /\ reduced eps p s.
Proof. intros T O eps p H. destruct (reduce_coef_ok eps p H) as (s & E & F & R). exists s. split; [unfold preduce; rewrite E; exact F|exact R]. Qed.
Print Assumptions C31_reduce.

(** Division with remainder: p = a q + b up to coefficients of b that were dropped as negligible;
    b has no coefficient at or above the degree of q. *)
Theorem C31_div : forall (T : Type) (O : Ops T), FieldLaws O -> forall eps (p q : list T), p <> [] -> q <> [] ->
  coefn q (length q - 1) <> zero -> negligible eps zero ->
  exists a b, pdiv eps p q = Ret (a, b) /\
    length a = Nat.max 1 (length p + 1 - length q) /\
    1 <= length b <= Nat.max 1 (length q - 1) /\
    (forall k, length q - 1 <= k -> coefn b k = zero) /\
    (forall k, exists d, coefn p k = add (add (prod_coef a q k) (coefn b k)) d /\ (d = zero \/ (coefn b k = zero /\ negligible eps d))).
Proof. intros T O F. exact (pdiv_spec F). Qed.
Print Assumptions C31_div.

(** Over the reals the dropped part is at most eps per coefficient. *)
Theorem C31_div_real : forall (eps : R) (p q : list R), (0 <= eps)%R -> p <> [] -> q <> [] -> coefn q (length q - 1) <> 0%R ->
  exists a b, pdiv eps p q = Ret (a, b) /\ (forall k, length q - 1 <= k -> coefn b k = 0%R) /\
    (forall k, (Rabs (coefn p k - (prod_coef a q k + coefn b k)) <= eps)%R).
Proof.
  intros eps p q He Hp Hq Hl. destruct (pdiv_spec R_FieldLaws eps p q Hp Hq Hl) as (a & b & E & _ & _ & Hb & Hc).
  - apply negligible_R. cbn [zero R_ops]. rewrite Rabs_R0. exact He.
  - exists a, b. split; [exact E|]. split; [exact Hb|]. intros k. destruct (Hc k) as (d & Hd & Hz). rewrite Hd. cbn [add zero R_ops] in *.
    replace (prod_coef a q k + coefn b k + d - (prod_coef a q k + coefn b k))%R with d by ring.
    destruct Hz as [->|[_ Hz]]; [rewrite Rabs_R0; exact He|apply negligible_R; exact Hz].
Qed.
Print Assumptions C31_div_real.

(** With nothing to drop: p = a q + b as computed by the library's own operators. *)
Theorem C31_div_exact : forall (T : Type) (O : Ops T), FieldLaws O -> forall eps (p q : list T), exact_eps eps -> p <> [] -> q <> [] ->
  coefn q (length q - 1) <> zero ->
  exists a b m s, pdiv eps p q = Ret (a, b) /\ pmul a q = Ret m /\ padd m b = Ret s /\ same_poly s p /\
    (forall k, length q - 1 <= k -> coefn b k = zero) /\ (forall x, peval p x = add (mul (peval a x) (peval q x)) (peval b x)).
Proof. intros T O F. exact (pdiv_exact F). Qed.
Print Assumptions C31_div_exact.

(** A divisor of higher degree: quotient zero, remainder the dividend, for any scalars. *)
Theorem C31_short : forall (T : Type) (O : Ops T) eps (p q : list T), p <> [] -> length p < length q ->
  pdiv eps p q = Ret ([zero], p).
Proof.
  intros T O eps p q Hp Hl. assert (Lp : 0 < length p) by (destruct p; [congruence|cbn; lia]).
  unfold pdiv, pdegree. rewrite !usub_ok by lia. cbn [bind].
  replace (length p - 1 <? length q - 1) with true by (symmetry; apply Nat.ltb_lt; lia). reflexivity.
Qed.
Print Assumptions C31_short.

Example C31_example : pdiv (qz 0) [qz 1; qz 2; qz 1] [qz 1; qz 1] = Ret ([qz 1; qz 1], [qz 0]) /\
  pdiv (qz 0) [qz 5; qz 0; qz 2] [qz 1; qz 1] = Ret ([qz (-2); qz 2], [qz 7]).
Proof. vm_compute. auto. Qed.
Example C31_exact_eps : exact_eps (0%R).
Proof. exact exact_eps_R0. Qed.

(** * C32 *)

(** The coefficients of the formal derivative, except trailing ones dropped as negligible. *)
Theorem C32_differentiate : forall (T : Type) (O : Ops T) (N : NOps T), RingLaws O -> forall eps (p : list T), p <> [] ->
  exists s, pdiff eps p = Ret s /\
    forall i, coefn s i = mul (of_nat (S i)) (coefn p (S i)) \/ (coefn s i = zero /\ negligible eps (mul (of_nat (S i)) (coefn p (S i)))).
Proof. intros T O N L eps p Hp. destruct (pdiff_coef L eps p Hp) as (s & E & _ & Hs). exists s. auto. Qed.
Print Assumptions C32_differentiate.

(** When the leading coefficient is not negligible nothing is dropped. *)
Theorem C32_differentiate_exact : forall (T : Type) (O : Ops T) (N : NOps T), RingLaws O -> forall eps (p : list T), 2 <= length p ->
  ~ negligible eps (mul (of_nat (length p - 1)) (coefn p (length p - 1))) ->
  exists s, pdiff eps p = Ret s /\ length s = length p - 1 /\ forall i, coefn s i = mul (of_nat (S i)) (coefn p (S i)).
Proof. intros T O N L. exact (pdiff_kept L). Qed.
Print Assumptions C32_differentiate_exact.

(** Over the reals it is the derivative of the evaluation function ... *)
Theorem C32_derivative : forall (eps : R) (p : list R), 2 <= length p ->
  ~ negligible eps (INR (length p - 1) * coefn p (length p - 1))%R ->
  exists s, pdiff eps p = Ret s /\ forall x, derivable_pt_lim (fun y => peval p y) x (peval s x).
Proof.
  intros eps p Hl Hn. destruct (pdiff_kept (N := R_nops) R_RingLaws eps p Hl Hn) as (s & E & _ & Hs). exists s. split; [exact E|].
  apply (pdiff_derivative_exact eps); [intro; subst p; cbn in Hl; lia|exact E|exact Hs].
Qed.
Print Assumptions C32_derivative.

(** ... up to eps times the powers of |x| in general. *)
Theorem C32_derivative_close : forall (eps : R) (p : list R), (0 <= eps)%R -> p <> [] -> exists s, pdiff eps p = Ret s /\
  forall x, exists D, derivable_pt_lim (fun y => peval p y) x D /\ (Rabs (D - peval s x) <= sumn (Nat.max (length p) (length s)) (fun i => (eps * Rabs x ^ i)%R))%R.
Proof. exact pdiff_derivative. Qed.
Print Assumptions C32_derivative_close.

(** Integration: zero constant term, coefficient i+1 is c_i/(i+1), except trailing ones dropped. *)
Theorem C32_integrate : forall (T : Type) (O : Ops T) (N : NOps T), FieldLaws O -> (forall n, of_nat (S n) <> zero) -> forall eps (p : list T),
  exists s, pinteg eps p = Ret s /\ coefn s 0 = zero /\
    forall i, coefn s (S i) = div (coefn p i) (of_nat (S i)) \/ (coefn s (S i) = zero /\ negligible eps (div (coefn p i) (of_nat (S i)))).
Proof. intros T O N F Hn eps p. destruct (pinteg_coef F Hn eps p) as (s & E & _ & H0 & Hs). exists s. auto. Qed.
Print Assumptions C32_integrate.

Theorem C32_antiderivative : forall (eps : R) (p : list R), p <> [] ->
  ~ negligible eps (coefn p (length p - 1) / INR (length p))%R ->
  exists s, pinteg eps p = Ret s /\ peval s 0%R = 0%R /\ forall x, derivable_pt_lim (fun y => peval s y) x (peval p x).
Proof.
  intros eps p Hp Hn. destruct (pinteg_kept (N := R_nops) R_FieldLaws R_of_nat_nz eps p Hp Hn) as (s & E & _ & H0 & Hs). exists s. split; [exact E|].
  split; [rewrite peval_at_zero; exact H0|]. apply (pinteg_exact p s eps E Hs).
Qed.
Print Assumptions C32_antiderivative.

Theorem C32_antiderivative_close : forall (eps : R) (p : list R), (0 <= eps)%R -> exists s, pinteg eps p = Ret s /\ peval s 0%R = 0%R /\
  forall x, exists D, derivable_pt_lim (fun y => peval s y) x D /\ (Rabs (D - peval p x) <= sumn (Nat.max (length p) (length s)) (fun i => (INR (S i) * eps * Rabs x ^ i)%R))%R.
Proof. exact pinteg_antiderivative. Qed.
Print Assumptions C32_antiderivative_close.

(** Differentiating the integral gives the polynomial back. *)
Theorem C32_differentiate_integrate : forall (T : Type) (O : Ops T) (N : NOps T), FieldLaws O -> (forall n, of_nat (S n) <> zero) ->
  forall eps (p : list T), p <> [] ->
  ~ negligible eps (div (coefn p (length p - 1)) (of_nat (length p))) -> ~ negligible eps (coefn p (length p - 1)) ->
  (let! s := pinteg eps p in pdiff eps s) = Ret p.
Proof. intros T O N F Hn. exact (pdiff_pinteg_exact F Hn). Qed.
Print Assumptions C32_differentiate_integrate.

Theorem C32_differentiate_integrate_close : forall (T : Type) (O : Ops T) (N : NOps T), FieldLaws O -> (forall n, of_nat (S n) <> zero) ->
  forall eps (p : list T), exists s d, pinteg eps p = Ret s /\ pdiff eps s = Ret d /\
  forall i, coefn d i = coefn p i \/ (coefn d i = zero /\ (negligible eps (coefn p i) \/ negligible eps (div (coefn p i) (of_nat (S i))))).
Proof. intros T O N F Hn. exact (pdiff_pinteg F Hn). Qed.
Print Assumptions C32_differentiate_integrate_close.

Example C32_example : pdiff (qz 0) [qz 1; qz 2; qz 3] = Ret [qz 2; qz 6] /\ pinteg (qz 0) [qz 2; qz 6] = Ret [qz 0; qz 2; qz 3].
Proof. split; qcompute. Qed.
Example C32_example_not_negligible : ~ negligible (1 / 1000)%R (INR (3 - 1) * coefn [1; 2; 3]%R (3 - 1))%R.
Proof. rewrite negligible_R. cbn. rewrite Rabs_right by lra. lra. Qed.
