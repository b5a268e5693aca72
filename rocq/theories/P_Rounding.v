(** Property theorems C82-C83: rounding errors of the binary64 computations.

    Reading guide.  [fvalid x]: x is one of the values of Rust's f64.  [ffin x]: it is neither an
    infinity nor a NaN, and [fval x] is then the real number it stands for.  [uro] = 2^-53 is the unit
    roundoff, [eta64] = 2^-1075 half the smallest positive float, [gam n] = (1 + uro)^n - 1, which is at most
    n uro / (1 - n uro) ([C82_gam]).  All are defined in F64_spec.v.  [rsum n f] is the real sum f 0 + ... + f (n-1).
    [is_mat A m n f]: A is an m x n matrix with entries [f i j]; [is_col v n b]: v is a column of length n.
    The arithmetic inside the routines is [F64_ops], IEEE-754 with rounding to nearest even. *)
From Coq Require Import ZArith Reals Lra Lia Bool Arith List SpecFloat.
From Verif Require Import Outcome Scalar Matrix_model Vector_model LU_model Poly_model Int_model Special_model Stat_model Matrix_spec LU_spec F64_spec
  Matrix_proofs Vector_proofs VecProps_proofs Subst_proofs F64Flocq F64Err_proofs F64Lin_proofs F64Sum_proofs RealOps Decomp_model Chol_proofs F64Chol_proofs F64Mat_proofs.
Import ListNotations.
Local Open Scope R_scope.

(** Example data: the floats nearest to 1/3, 1/10, 7 and so on. *)
Definition ff (p q : Z) : f64 := div (int_as_f64 p) (int_as_f64 q).
Definition exF : matrix f64 := mkMatrix 2 2 [ff 1 3; ff 1 10; ff 7 1; ff (-2) 7].
Definition entF (i j : nat) : f64 := nth (j * 2 + i) (data exF) zero.
Example exF_mat : is_mat exF 2 2 entF.
Proof. apply is_mat_intro; auto. intros i j Hi Hj. apply vget_ok. simpl length. lia. Qed.
Definition exv : vector f64 := mkMatrix 2 1 [ff 1 7; ff 3 1].
Definition entv (i : nat) : f64 := nth i (data exv) zero.
Example exv_col : is_col exv 2 entv.
Proof. apply is_mat_intro; auto. intros i j Hi Hj. assert (j = 0)%nat by lia. subst j. apply vget_ok. simpl length. lia. Qed.
Ltac small i := destruct i as [|[|i]]; [vm_compute; reflexivity..|exfalso; lia].
Example exF_valid : forall i j, (i < 2)%nat -> (j < 2)%nat -> fvalid (entF i j).
Proof. intros i j Hi Hj. destruct i as [|[|i]]; [small j..|lia]. Qed.
Example exv_valid : forall i, (i < 2)%nat -> fvalid (entv i).
Proof. intros i Hi. small i. Qed.

(** * C82 *)

(** The accumulated error in the form n u / (1 - n u). *)
Theorem C82_gam : forall n, INR n * uro < 1 -> gam n <= INR n * uro / (1 - INR n * uro).
Proof. exact gam_le. Qed.
Print Assumptions C82_gam.
Example C82_gam_ex : INR 1000 * uro < 1.
Proof. rewrite uro_val, INR_IZR_INZ. simpl. lra. Qed.

(** The trace: n - 1 rounded additions; a finite result means that every diagonal entry is finite. *)
Theorem C82_trace : forall (A : matrix f64) n f, is_mat A n n f -> (forall i, (i < n)%nat -> fvalid (f i i)) ->
  exists t, mtrace A = Ret t /\
    (ffin t = true -> (forall i, (i < n)%nat -> ffin (f i i) = true) /\
     Rabs (fval t - rsum n (fun i => fval (f i i))) <= gam (n - 1) * rsum n (fun i => Rabs (fval (f i i)))).
Proof. intros A n f HA V. eexists. split; [exact (mtrace_spec A n f HA)|]. exact (fsum_err n (fun i => f i i) V). Qed.
Print Assumptions C82_trace.
Example C82_trace_ex : exists t, mtrace exF = Ret t /\ ffin t = true.
Proof. eexists. split; vm_compute; reflexivity. Qed.

(** The dot product. *)
Theorem C82_dot : forall (v w : vector f64) n x y, (1 <= n)%nat -> is_col v n x -> is_col w n y ->
  (forall i, (i < n)%nat -> fvalid (x i) /\ fvalid (y i)) ->
  exists t, vdotp v w = Ret t /\
    (ffin t = true -> (forall i, (i < n)%nat -> ffin (x i) = true /\ ffin (y i) = true) /\
     Rabs (fval t - rsum n (fun i => fval (x i) * fval (y i))) <=
       gam n * rsum n (fun i => Rabs (fval (x i) * fval (y i))) + INR n * eta64 * (1 + uro) ^ n).
Proof. intros v w n x y Hn Hv Hw V. eexists. split; [exact (vdotp_spec v w n x y Hn Hv Hw)|]. exact (fdot_err n x y V). Qed.
Print Assumptions C82_dot.
Example C82_dot_ex : exists t, vdotp exv exv = Ret t /\ ffin t = true.
Proof. eexists. split; vm_compute; reflexivity. Qed.

(** The product of a matrix and a vector. *)
Theorem C82_mul_vec : forall (A : matrix f64) (v : vector f64) m n f x, is_mat A m n f -> is_col v n x ->
  (forall i j, (i < m)%nat -> (j < n)%nat -> fvalid (f i j)) -> (forall j, (j < n)%nat -> fvalid (x j)) ->
  exists w y, mmul_vec A v = Ret w /\ is_col w m y /\
    forall i, (i < m)%nat -> ffin (y i) = true ->
      Rabs (fval (y i) - rsum n (fun j => fval (f i j) * fval (x j))) <=
        gam n * rsum n (fun j => Rabs (fval (f i j) * fval (x j))) + INR n * eta64 * (1 + uro) ^ n.
Proof.
  intros A v m n f x HA Hv VA Vx. destruct (mmul_vec_spec A m n f v x HA Hv) as (w & E & H). eexists w, _. split; [exact E|]. split; [exact H|].
  intros i Hi F. apply (fdot_err n (f i) x); [|exact F]. auto.
Qed.
Print Assumptions C82_mul_vec.
Example C82_mul_vec_ex : exists w, mmul_vec exF exv = Ret w /\ forall i, (i < 2)%nat -> exists y, vvget w i = Ret y /\ ffin y = true.
Proof. eexists. split; [vm_compute; reflexivity|]. intros [|[|i]] Hi; [eexists; split; vm_compute; reflexivity..|lia]. Qed.

(** The product of two matrices. *)
Theorem C82_mul : forall (A B : matrix f64) m k n f g, is_mat A m k f -> is_mat B k n g ->
  (forall i l, (i < m)%nat -> (l < k)%nat -> fvalid (f i l)) -> (forall l j, (l < k)%nat -> (j < n)%nat -> fvalid (g l j)) ->
  exists C h, mmul A B = Ret C /\ is_mat C m n h /\
    forall i j, (i < m)%nat -> (j < n)%nat -> ffin (h i j) = true ->
      Rabs (fval (h i j) - rsum k (fun l => fval (f i l) * fval (g l j))) <=
        gam k * rsum k (fun l => Rabs (fval (f i l) * fval (g l j))) + INR k * eta64 * (1 + uro) ^ k.
Proof.
  intros A B m k n f g HA HB VA VB. destruct (mmul_spec A B m k n f g HA HB) as (C & E & H). eexists C, _. split; [exact E|]. split; [exact H|].
  intros i j Hi Hj F. apply (fdot_err k (f i) (fun l => g l j)); [|exact F]. auto.
Qed.
Print Assumptions C82_mul.
Example C82_mul_ex : exists C, mmul exF exF = Ret C /\ forall i j, (i < 2)%nat -> (j < 2)%nat -> exists y, mget C i j = Ret y /\ ffin y = true.
Proof.
  eexists. split; [vm_compute; reflexivity|].
  intros [|[|i]] [|[|j]] Hi Hj; first [lia|eexists; split; vm_compute; reflexivity].
Qed.

(** Polynomial evaluation; coefficient [nth i p] belongs to x^i. *)
Theorem C82_eval : forall (p : list f64) (x : f64), fvalid x -> Forall fvalid p -> ffin (peval p x) = true ->
  Forall (fun c => ffin c = true) p /\
  Rabs (fval (peval p x) - rsum (length p) (fun i => fval (nth i p zero) * fval x ^ i)) <=
    gam (2 * length p) * rsum (length p) (fun i => Rabs (fval (nth i p zero)) * Rabs (fval x) ^ i) +
    rsum (length p) (fun i => Rabs (fval x) ^ i) * (eta64 * (1 + uro) ^ (2 * length p)).
Proof. exact peval_err. Qed.
Print Assumptions C82_eval.
Example C82_eval_ex : ffin (peval [ff 1 3; ff (-2) 7; ff 5 1] (ff 1 10)) = true /\ fvalid (ff 1 10) /\ Forall fvalid [ff 1 3; ff (-2) 7; ff 5 1].
Proof. split; [vm_compute; reflexivity|]. split; [vm_compute; reflexivity|]. repeat constructor; vm_compute; reflexivity. Qed.

(** The arithmetic mean of a sample of at most 2^53 values. *)
Theorem C82_mean : forall l : list f64, (1 <= length l)%nat -> (Z.of_nat (length l) <= 2 ^ 53)%Z -> Forall fvalid l -> ffin (calc_mean l) = true ->
  Forall (fun x => ffin x = true) l /\
  Rabs (fval (calc_mean l) - rsum (length l) (fun i => fval (nth i l zero)) / INR (length l)) <=
    gam (length l) * (rsum (length l) (fun i => Rabs (fval (nth i l zero))) / INR (length l)) + eta64.
Proof. exact mean_err. Qed.
Print Assumptions C82_mean.
Example C82_mean_ex : ffin (calc_mean [ff 1 3; ff (-2) 7; ff 5 1]) = true /\ Forall fvalid [ff 1 3; ff (-2) 7; ff 5 1].
Proof. split; [vm_compute; reflexivity|]. repeat constructor; vm_compute; reflexivity. Qed.

(** * C83 *)

(** Forward substitution: the computed x solves L x = b up to a small residual, relative to |L||x|. *)
Theorem C83_forward : forall (M : matrix f64) n L v b, is_mat M n n L -> is_col v n b ->
  (forall i j, (i < n)%nat -> (j < n)%nat -> fvalid (L i j)) -> (forall i, (i < n)%nat -> fvalid (b i)) ->
  exists w x, subst_forward_vec M v = Ret w /\ is_col w n x /\
    ((forall k, (k < n)%nat -> ffin (L k k) = true) -> (forall k, (k < n)%nat -> ffin (x k) = true) ->
     forall k, (k < n)%nat ->
     Rabs (fval (b k) - rsum (S k) (fun l => fval (L k l) * fval (x l))) <=
       gam n * rsum (S k) (fun l => Rabs (fval (L k l) * fval (x l))) + (INR n + Rabs (fval (L k k))) * eta64 * (1 + uro) ^ n).
Proof.
  intros M n L v b HM Hv VL Vb. destruct (subst_forward_vec_spec M n L v b HM Hv) as (w & x & E & Hx & S). exists w, x. split; [exact E|]. split; [exact Hx|].
  intros FD FX k Hk. apply (fwd_err n L b x S VL Vb FD FX k Hk).
Qed.
Print Assumptions C83_forward.
Example C83_forward_ex : (forall k, (k < 2)%nat -> ffin (entF k k) = true) /\
  exists w, subst_forward_vec exF exv = Ret w /\ forall i, (i < 2)%nat -> exists y, vvget w i = Ret y /\ ffin y = true.
Proof.
  split; [intros k Hk; small k|]. eexists. split; [vm_compute; reflexivity|]. intros [|[|i]] Hi; [eexists; split; vm_compute; reflexivity..|lia].
Qed.

(** Backward substitution. *)
Theorem C83_backward : forall (M : matrix f64) n U v b, is_mat M n n U -> is_col v n b ->
  (forall i j, (i < n)%nat -> (j < n)%nat -> fvalid (U i j)) -> (forall i, (i < n)%nat -> fvalid (b i)) ->
  exists w x, subst_backward_vec M v = Ret w /\ is_col w n x /\
    ((forall k, (k < n)%nat -> ffin (U k k) = true /\ fval (U k k) <> 0) -> (forall k, (k < n)%nat -> ffin (x k) = true) ->
     forall k, (k < n)%nat ->
     Rabs (fval (b k) - rsum n (fun l => if (k <=? l)%nat then fval (U k l) * fval (x l) else 0)) <=
       gam n * rsum n (fun l => if (k <=? l)%nat then Rabs (fval (U k l) * fval (x l)) else 0) +
       (INR n + Rabs (fval (U k k))) * eta64 * (1 + uro) ^ n).
Proof.
  intros M n L v b HM Hv VL Vb. destruct (subst_backward_vec_spec M n L v b HM Hv) as (w & x & E & Hx & S). exists w, x. split; [exact E|]. split; [exact Hx|].
  intros FD FX k Hk. apply (bwd_err n L b x S VL Vb FD FX k Hk).
Qed.
Print Assumptions C83_backward.
Example C83_backward_ex : (forall k, (k < 2)%nat -> ffin (entF k k) = true /\ fval (entF k k) <> 0) /\
  exists w, subst_backward_vec exF exv = Ret w /\ forall i, (i < 2)%nat -> exists y, vvget w i = Ret y /\ ffin y = true.
Proof.
  split. { intros k Hk. split; [small k|]. apply fnz; [now apply exF_valid|small k|small k]. }
  eexists. split; [vm_compute; reflexivity|]. intros [|[|i]] Hi; [eexists; split; vm_compute; reflexivity..|lia].
Qed.

(** LU decomposition: row [s r] of A is row [r] of L U up to a small error relative to |L||U|, for every entry
    whose computed factor is finite (and, below the diagonal, has a finite nonzero pivot). *)
Theorem C83_lu : forall (A : matrix f64) n f, is_mat A n n f -> (forall r c, (r < n)%nat -> (c < n)%nat -> fvalid (f r c)) ->
  exists d l u s, dec_lu A = Ret (Ok d) /\ is_mat (lu_l d) n n l /\ is_mat (lu_u d) n n u /\ is_mat (lu_p d) n n (perm_fun s) /\ perm_on n s /\
    unit_lower n l /\ upper n n u /\
    forall r c, (r < n)%nat -> (c < n)%nat -> ffin (l r c) = true -> ffin (u r c) = true -> ((c < r)%nat -> ffin (u c c) = true /\ fval (u c c) <> 0) ->
      Rabs (fval (f (s r) c) - rsum n (fun k => fval (l r k) * fval (u k c))) <=
        gam n * rsum n (fun k => Rabs (fval (l r k) * fval (u k c))) + (INR n + Rabs (fval (u c c))) * eta64 * (1 + uro) ^ n.
Proof. exact dec_lu_err_api. Qed.
Print Assumptions C83_lu.
Example C83_lu_ex : exists d, dec_lu exF = Ret (Ok d) /\ (forall i j, (i < 2)%nat -> (j < 2)%nat -> exists y z, mget (lu_l d) i j = Ret y /\ mget (lu_u d) i j = Ret z /\ ffin y = true /\ ffin z = true) /\
  exists p, mget (lu_u d) 0 0 = Ret p /\ fval p <> 0.
Proof.
  eexists. split; [vm_compute; reflexivity|]. split.
  - intros [|[|i]] [|[|j]] Hi Hj; first [lia|eexists _, _; split; [vm_compute; reflexivity|]; split; vm_compute; [reflexivity|split; reflexivity]].
  - eexists. split; [vm_compute; reflexivity|]. apply fnz; vm_compute; reflexivity.
Qed.

(** Solving a linear system: whenever the computed solution and the pivots are finite and no pivot is zero, the
    residual b - A x is small relative to |L||U||x|, the L and U being those [dec_lu] returns, all of them finite. *)
Theorem C83_solve : forall (A : matrix f64) n f v b, is_mat A n n f -> is_col v n b ->
  (forall r c, (r < n)%nat -> (c < n)%nat -> fvalid (f r c)) -> (forall r, (r < n)%nat -> fvalid (b r)) ->
  exists d l u s w x, dec_lu A = Ret (Ok d) /\ is_mat (lu_l d) n n l /\ is_mat (lu_u d) n n u /\ is_mat (lu_p d) n n (perm_fun s) /\ perm_on n s /\
    solve_vec A v = Ret (Ok w) /\ is_col w n x /\
    ((forall k, (k < n)%nat -> ffin (u k k) = true /\ fval (u k k) <> 0) -> (forall k, (k < n)%nat -> ffin (x k) = true) ->
     (forall i j, (i < n)%nat -> (j < n)%nat -> ffin (l i j) = true /\ ffin (u i j) = true) /\
     forall r, (r < n)%nat ->
     Rabs (fval (b (s r)) - rsum n (fun c => fval (f (s r) c) * fval (x c))) <=
       gam (3 * n) * rsum n (fun k => Rabs (fval (l r k)) * rsum n (fun c => Rabs (fval (u k c) * fval (x c)))) +
       (INR n + 1 + rsum n (fun k => (INR n + Rabs (fval (u k k))) * (Rabs (fval (l r k)) + Rabs (fval (x k))))) * (eta64 * (1 + uro) ^ (2 * n))).
Proof. exact solve_vec_err. Qed.
Print Assumptions C83_solve.
Example C83_solve_ex : exists d w, dec_lu exF = Ret (Ok d) /\ solve_vec exF exv = Ret (Ok w) /\
  (forall k, (k < 2)%nat -> exists p, mget (lu_u d) k k = Ret p /\ ffin p = true /\ fval p <> 0) /\
  (forall k, (k < 2)%nat -> exists y, vvget w k = Ret y /\ ffin y = true).
Proof.
  eexists _, _. split; [vm_compute; reflexivity|]. split; [vm_compute; reflexivity|]. split.
  - intros [|[|i]] Hi; [..|lia]; (eexists; split; [vm_compute; reflexivity|]; split; [vm_compute; reflexivity|]; apply fnz; vm_compute; reflexivity).
  - intros [|[|i]] Hi; [..|lia]; (eexists; split; vm_compute; reflexivity).
Qed.

(** Solving with a matrix right-hand side, where the pivots' reciprocals are multiplied, column by column. *)
Theorem C83_solve_matrix : forall (A : matrix f64) n f B p b, is_mat A n n f -> is_mat B n p b ->
  (forall r c, (r < n)%nat -> (c < n)%nat -> fvalid (f r c)) -> (forall r c, (r < n)%nat -> (c < p)%nat -> fvalid (b r c)) ->
  exists d l u s X x, dec_lu A = Ret (Ok d) /\ is_mat (lu_l d) n n l /\ is_mat (lu_u d) n n u /\ is_mat (lu_p d) n n (perm_fun s) /\ perm_on n s /\
    solve_mat A B = Ret (Ok X) /\ is_mat X n p x /\
    forall j, (j < p)%nat -> (forall k, (k < n)%nat -> ffin (u k k) = true) -> (forall k, (k < n)%nat -> ffin (x k j) = true) ->
     (forall k, (k < n)%nat -> fval (u k k) <> 0) /\
     (forall i k, (i < n)%nat -> (k < n)%nat -> ffin (l i k) = true /\ ffin (u i k) = true) /\
     forall r, (r < n)%nat ->
     Rabs (fval (b (s r) j) - rsum n (fun c => fval (f (s r) c) * fval (x c j))) <=
       gam (3 * (n + 6)) * rsum n (fun k => Rabs (fval (l r k)) * rsum n (fun c => Rabs (fval (u k c) * fval (x c j)))) +
       (INR n + 1 + rsum n (fun k => (INR n + Rabs (fval (u k k))) * (Rabs (fval (l r k)) + Rabs (fval (x k j))))) * (eta64 * (1 + uro) ^ (2 * (n + 6))).
Proof. exact solve_mat_err. Qed.
Print Assumptions C83_solve_matrix.
Example C83_solve_matrix_ex : exists d X, dec_lu exF = Ret (Ok d) /\ solve_mat exF exF = Ret (Ok X) /\
  (forall k, (k < 2)%nat -> exists p, mget (lu_u d) k k = Ret p /\ ffin p = true) /\
  (forall k j, (k < 2)%nat -> (j < 2)%nat -> exists y, mget X k j = Ret y /\ ffin y = true).
Proof.
  eexists _, _. split; [vm_compute; reflexivity|]. split; [vm_compute; reflexivity|]. split.
  - intros [|[|i]] Hi; [..|lia]; (eexists; split; vm_compute; reflexivity).
  - intros [|[|i]] [|[|j]] Hi Hj; first [lia|eexists; split; vm_compute; reflexivity].
Qed.

(** The inverse: the residual of A X = I. *)
Theorem C83_inverse : forall (A : matrix f64) n f, is_mat A n n f -> (forall r c, (r < n)%nat -> (c < n)%nat -> fvalid (f r c)) ->
  exists d l u s X x, dec_lu A = Ret (Ok d) /\ is_mat (lu_l d) n n l /\ is_mat (lu_u d) n n u /\ is_mat (lu_p d) n n (perm_fun s) /\ perm_on n s /\
    minv A = Ret (Ok X) /\ is_mat X n n x /\
    forall j, (j < n)%nat -> (forall k, (k < n)%nat -> ffin (u k k) = true) -> (forall k, (k < n)%nat -> ffin (x k j) = true) ->
     (forall k, (k < n)%nat -> fval (u k k) <> 0) /\
     (forall i k, (i < n)%nat -> (k < n)%nat -> ffin (l i k) = true /\ ffin (u i k) = true) /\
     forall r, (r < n)%nat ->
     Rabs ((if (s r =? j)%nat then 1 else 0) - rsum n (fun c => fval (f (s r) c) * fval (x c j))) <=
       gam (3 * (n + 6)) * rsum n (fun k => Rabs (fval (l r k)) * rsum n (fun c => Rabs (fval (u k c) * fval (x c j)))) +
       (INR n + 1 + rsum n (fun k => (INR n + Rabs (fval (u k k))) * (Rabs (fval (l r k)) + Rabs (fval (x k j))))) * (eta64 * (1 + uro) ^ (2 * (n + 6))).
Proof. exact minv_err. Qed.
Print Assumptions C83_inverse.
Example C83_inverse_ex : exists d X, dec_lu exF = Ret (Ok d) /\ minv exF = Ret (Ok X) /\
  (forall k, (k < 2)%nat -> exists p, mget (lu_u d) k k = Ret p /\ ffin p = true) /\
  (forall k j, (k < 2)%nat -> (j < 2)%nat -> exists y, mget X k j = Ret y /\ ffin y = true).
Proof.
  eexists _, _. split; [vm_compute; reflexivity|]. split; [vm_compute; reflexivity|]. split.
  - intros [|[|i]] Hi; [..|lia]; (eexists; split; vm_compute; reflexivity).
  - intros [|[|i]] [|[|j]] Hi Hj; first [lia|eexists; split; vm_compute; reflexivity].
Qed.

(** Cholesky decomposition; the code takes square roots with [powf(1/2)], whose accuracy is a hypothesis. *)
Theorem C83_cholesky : forall (pw : f64 -> f64 -> f64) k, sqrt_acc k (fun x => pw x (@half f64 (F64_pops pw))) ->
  forall (A : matrix f64) n a, is_mat A n n a -> (forall r c, (r < n)%nat -> (c < n)%nat -> fvalid (a r c)) ->
  exists l g, @dec_cholesky f64 F64_ops (F64_pops pw) A = Ret (Ok l) /\ is_mat l n n g /\
    ((forall r c, (r < n)%nat -> (c < n)%nat -> ffin (g r c) = true) ->
     forall r c, (r < n)%nat -> (c <= r)%nat ->
     Rabs (fval (a r c) - rsum n (fun j => fval (g r j) * fval (g c j))) <=
       gam (n + k + 1) * rsum n (fun j => Rabs (fval (g r j) * fval (g c j))) + (INR n + Rabs (fval (g c c))) * eta64 * (1 + uro) ^ n).
Proof.
  intros pw k SQ A n a HA Va. destruct (@dec_cholesky_spec f64 F64_ops (F64_pops pw) A n a HA) as (l & g & E & Hl & Hg). exists l, g. split; [exact E|]. split; [exact Hl|].
  intros Fg. exact (chol_err pw k n a g SQ Hg Va Fg).
Qed.
Print Assumptions C83_cholesky.
(** The IEEE square root is accurate, and with it the decomposition of ((2, 1), (1, 1/3 + 1)) is finite. *)
Example C83_cholesky_ex_sqrt : sqrt_acc 2 (fun x => (fun x (_ : f64) => SFsqrt 53 1024 x) x (@half f64 (F64_pops (fun x _ => x)))).
Proof. exact sqrt_acc_ieee. Qed.
Example C83_cholesky_ex : exists l, @dec_cholesky f64 F64_ops (F64_pops (fun x _ => SFsqrt 53 1024 x)) (mkMatrix 2 2 [ff 2 1; ff 1 1; ff 1 1; ff 4 3]) = Ret (Ok l) /\
  forall i j, (i < 2)%nat -> (j < 2)%nat -> exists y, mget l i j = Ret y /\ ffin y = true.
Proof.
  eexists. split; [vm_compute; reflexivity|]. intros [|[|i]] [|[|j]] Hi Hj; first [lia|eexists; split; vm_compute; reflexivity].
Qed.
