(** Property theorems C112: in binary64 the minimisers never return a worse point than they were given.

    Reading guide.  [fvalid], [ffin] (F64_spec.v): a binary64 datum, a finite one.  [leb] is the comparison
    [<=] of f64, false if a side is NaN.  [computes func n m F], [computes_mat jac n p n J] (Optim_spec.v):
    the user's function and Jacobian, without panics, as f64 functions of the coordinates: [F g 0] is the
    number the user's code returns at the point [g], rounding errors included.  [is_col x n g]: the vector
    [x] has the n coordinates [g].  [pw] is the platform's [powf]: arbitrary. *)
From Coq Require Import Arith Lia List Bool ZArith Reals SpecFloat.
From Verif Require Import Outcome Scalar RealOps Elem_model Int_model Matrix_model Vector_model LU_model Decomp_model Ode_model Special_model Optim_model
  Matrix_spec F64_spec Optim_spec Matrix_proofs Vector_proofs F64Flocq F64Descent_proofs.
Import ListNotations.

(** [Gradient::minimize]: if it comes back with [x], the computed objective at [x] is at most the computed
    objective at the start, exactly (no rounding allowance), whatever the Jacobian function returns, be it
    infinite, NaN or wrong. *)
Theorem C112_gradient : forall pw func jac n m p F J, computes func n m F -> computes_mat jac n p n J ->
  (0 < m)%nat -> (0 < p)%nat -> (0 < n)%nat ->
  (forall g, (forall i, (i < n)%nat -> fvalid (g i)) -> fvalid (F g 0%nat)) ->
  (forall g, (forall i, (i < n)%nat -> fvalid (g i)) -> forall i, (i < n)%nat -> fvalid (J g 0%nat i)) ->
  forall sigma, fvalid sigma -> leb zero sigma = true ->
  forall fuel iters x0 g0 x, is_col x0 n g0 -> (forall i, (i < n)%nat -> fvalid (g0 i)) -> F g0 0%nat <> S754_nan ->
  @grad_min f64 F64_ops (F64_pops pw) iters fuel sigma func jac x0 = Ret (Some x) ->
  exists g, is_col x n g /\ (forall i, (i < n)%nat -> fvalid (g i)) /\ leb (F g 0%nat) (F g0 0%nat) = true.
Proof. exact grad_min_descent. Qed.
Print Assumptions C112_gradient.

(** [Newton::minimize]: the same, if the objective is not NaN at a point the run visits and the slope along
    the direction taken there is finite.  The Hessian may be wrong, and [solve] may fail. *)
Theorem C112_newton : forall pw func jac n m p F J, computes func n m F -> computes_mat jac n p n J ->
  (0 < m)%nat -> (0 < p)%nat -> (0 < n)%nat ->
  (forall g, (forall i, (i < n)%nat -> fvalid (g i)) -> fvalid (F g 0%nat)) ->
  (forall g, (forall i, (i < n)%nat -> fvalid (g i)) -> forall i, (i < n)%nat -> fvalid (J g 0%nat i)) ->
  forall sigma, fvalid sigma -> leb zero sigma = true -> ffin sigma = true -> forall rho, fvalid rho -> leb zero rho = true ->
  forall fuel hess iters x0 g0 x, is_col x0 n g0 -> (forall i, (i < n)%nat -> fvalid (g0 i)) ->
  (forall k x g, (k <= iters)%nat -> @newton_min f64 F64_ops (F64_pops pw) k fuel sigma rho func jac hess x0 = Ret (Some x) -> is_col x n g ->
     F g 0%nat <> S754_nan) ->
  (forall k x g, (k < iters)%nat -> @newton_min f64 F64_ops (F64_pops pw) k fuel sigma rho func jac hess x0 = Ret (Some x) -> is_col x n g ->
     (exists A, hess x = Ret A /\ forall b, is_col b n (fun i => neg (J g 0%nat i)) ->
       solve_vec A b = Ret Err \/ exists s S, solve_vec A b = Ret (Ok s) /\ is_col s n S /\ forall i, (i < n)%nat -> fvalid (S i)) /\
     forall v d t, grad_at jac x = Ret v -> newton_dir rho hess x v = Ret d -> vdotp v d = Ret t -> ffin t = true) ->
  @newton_min f64 F64_ops (F64_pops pw) iters fuel sigma rho func jac hess x0 = Ret (Some x) ->
  exists g, is_col x n g /\ (forall i, (i < n)%nat -> fvalid (g i)) /\ leb (F g 0%nat) (F g0 0%nat) = true.
Proof.
  intros pw func jac n m p F J HF HJ Hm Hp Hn VF VJ sigma Vs Hs Fs rho Vr Hr.
  exact (newton_min_descent pw func jac n m p F J HF HJ Hm Hp Hn VF VJ sigma Vs Hs Fs rho Vr Hr).
Qed.
Print Assumptions C112_newton.

(** Without the condition on NaN the claim about [Newton::minimize] is false: its line search stops when
    the trial value is not larger than the bound, and NaN is not larger.  For the objective x*x/x (which is x,
    except at 0), its derivative 1 and second derivative 0, one iteration from 1, where the objective is 1,
    returns 0, where it is NaN.  [Gradient::minimize] rejects that point and returns 1/2. *)
Theorem C112_newton_nan_refuted : forall pw fuel,
  let func := fun x : vector f64 => Ret (mapply (fun v => div (mul v v) v) x) in
  let jac := fun _ : vector f64 => Ret (mkMatrix 1 1 [one]) in
  let hess := fun _ : vector f64 => Ret (mkMatrix 1 1 [zero]) in
  func (mkMatrix 1 1 [one]) = Ret (mkMatrix 1 1 [one]) /\
  @newton_min f64 F64_ops (F64_pops pw) 1 fuel (lit 1 4) (lit 1 4) func jac hess (mkMatrix 1 1 [one]) = Ret (Some (mkMatrix 1 1 [zero])) /\
  func (mkMatrix 1 1 [zero]) = Ret (mkMatrix 1 1 [S754_nan]) /\
  @grad_min f64 F64_ops (F64_pops pw) 1 2 (lit 1 4) func jac (mkMatrix 1 1 [one]) = Ret (Some (mkMatrix 1 1 [lit 1 2])).
Proof.
  intros pw fuel func jac hess. split; [vm_compute; reflexivity|]. split; [|split; vm_compute; reflexivity].
  destruct fuel; vm_compute; reflexivity.
Qed.
Print Assumptions C112_newton_nan_refuted.

(** The square function meets the hypotheses of both theorems: gradient descent from any number whose square is
    not NaN, and one Newton iteration from 3. *)
Example C112_example : forall pw,
  let func := fun x : vector f64 => Ret (mapply (fun v => mul v v) x) in
  let jac := fun x : vector f64 => Ret (mapply (fun v => add v v) x) in
  let hess := fun _ : vector f64 => Ret (mkMatrix 1 1 [add one one]) in
  let three := add one (add one one) in
  (forall v iters fuel x, fvalid v -> mul v v <> S754_nan ->
     @grad_min f64 F64_ops (F64_pops pw) iters fuel (lit 1 4) func jac (mkMatrix 1 1 [v]) = Ret (Some x) ->
     exists g, is_col x 1 g /\ leb (mul (g 0%nat) (g 0%nat)) (mul v v) = true) /\
  @grad_min f64 F64_ops (F64_pops pw) 3 5 (lit 1 4) func jac (mkMatrix 1 1 [three]) = Ret (Some (mkMatrix 1 1 [zero])) /\
  @newton_min f64 F64_ops (F64_pops pw) 1 5 (lit 1 4) (lit 1 4) func jac hess (mkMatrix 1 1 [three]) = Ret (Some (mkMatrix 1 1 [zero])) /\
  exists g, is_col (mkMatrix 1 1 [zero : f64]) 1 g /\ leb (mul (g 0%nat) (g 0%nat)) (mul three three) = true.
Proof.
  intros pw func jac hess three.
  assert (HF : computes func 1 1 (fun g i => mul (g i) (g i))) by (intros x g Hx; eexists; split; [reflexivity|]; exact (mapply_spec _ x 1 1 _ Hx)).
  assert (HJ : computes_mat jac 1 1 1 (fun g i j => add (g 0%nat) (g 0%nat))).
  { intros x g Hx. eexists. split; [reflexivity|]. eapply is_mat_ext; [|exact (mapply_spec _ x 1 1 _ Hx)]. intros i j Hi Hj. replace i with 0%nat by lia. reflexivity. }
  assert (Hcol : forall v : f64, is_col (mkMatrix 1 1 [v]) 1 (fun _ => v)).
  { intros v. split; [reflexivity|]. split; [reflexivity|]. intros i j Hi Hj. replace i with 0%nat by lia. replace j with 0%nat by lia. reflexivity. }
  assert (Hval : forall x g, is_col (mkMatrix 1 1 [x : f64]) 1 g -> g 0%nat = x).
  { intros x g Hg. pose proof (col_get _ _ _ 0 Hg ltac:(lia)) as G. rewrite (col_get _ _ _ 0 (Hcol x) ltac:(lia)) in G. injection G as <-. reflexivity. }
  assert (VF : forall g : nat -> f64, (forall i, (i < 1)%nat -> fvalid (g i)) -> fvalid (mul (g 0%nat) (g 0%nat))) by (intros g H; apply fvalid_mul; apply H; lia).
  assert (VJ : forall g : nat -> f64, (forall i, (i < 1)%nat -> fvalid (g i)) -> forall i, (i < 1)%nat -> fvalid (add (g 0%nat) (g 0%nat))) by (intros g H i Hi; apply fvalid_add; apply H; lia).
  assert (E1 : @newton_min f64 F64_ops (F64_pops pw) 1 5 (lit 1 4) (lit 1 4) func jac hess (mkMatrix 1 1 [three]) = Ret (Some (mkMatrix 1 1 [zero]))) by (vm_compute; reflexivity).
  assert (V4 : fvalid (lit 1 4 : f64)) by (vm_compute; reflexivity). assert (H4 : leb zero (lit 1 4 : f64) = true) by (vm_compute; reflexivity).
  assert (F4 : ffin (lit 1 4 : f64) = true) by (vm_compute; reflexivity). assert (V3 : fvalid three) by (vm_compute; reflexivity).
  split; [|split; [vm_compute; reflexivity|split; [exact E1|]]].
  - intros v iters fuel x Vv Nv E. destruct (C112_gradient pw func jac 1 1 1 _ _ HF HJ (le_n 1) (le_n 1) (le_n 1) VF VJ (lit 1 4) V4 H4
      fuel iters (mkMatrix 1 1 [v]) (fun _ => v) x (Hcol v) (fun _ _ => Vv) Nv E) as (g & Hg & _ & L). exists g. split; [exact Hg|exact L].
  - destruct (C112_newton pw func jac 1 1 1 _ _ HF HJ (le_n 1) (le_n 1) (le_n 1) VF VJ (lit 1 4) V4 H4 F4
      (lit 1 4) V4 H4 5%nat hess 1%nat (mkMatrix 1 1 [three]) (fun _ => three) (mkMatrix 1 1 [zero])
      (Hcol three) (fun _ _ => V3)) as (g & Hg & _ & L); [| |exact E1|exists g; split; [exact Hg|exact L]].
    + intros k x g Hk E Hx. destruct k as [|[|k]]; [| |lia].
      * cbn [newton_min] in E. injection E as <-. apply Hval in Hx. rewrite Hx. vm_compute. discriminate.
      * rewrite E1 in E. injection E as <-. apply Hval in Hx. rewrite Hx. vm_compute. discriminate.
    + intros k x g Hk E Hx. replace k with 0%nat in E by lia. cbn [newton_min] in E. injection E as <-. apply Hval in Hx. split.
      * eexists. split; [reflexivity|]. intros b Hb. right. rewrite Hx in Hb. pose proof (col_get _ _ _ 0 Hb ltac:(lia)) as G.
        assert (Eb : b = mkMatrix 1 1 [neg (add three three)]).
        { destruct b as [rb cb db]. destruct Hb as (D & L & Hd). cbn [data] in L. injection D as -> ->. destruct db as [|v [|w db]]; try discriminate L.
          specialize (Hd 0%nat 0%nat ltac:(lia) ltac:(lia)). rewrite (proj2 (proj2 (Hcol v)) 0%nat 0%nat) in Hd by lia. injection Hd as ->. reflexivity. }
        subst b. exists (mkMatrix 1 1 [neg three]), (fun _ => neg three). split; [vm_compute; reflexivity|]. split; [apply Hcol|intros; vm_compute; reflexivity].
      * intros v d t Ev Ed Et. vm_compute in Ev. injection Ev as <-. vm_compute in Ed. injection Ed as <-. vm_compute in Et. injection Et as <-. reflexivity.
Qed.
