(** The eigenvector solver: when a column is an eigenvector; 2 x 2 matrices. *)
From Coq Require Import Arith List Bool Lia Ring Reals Lra.
From Verif Require Import Outcome Scalar Matrix_model Transpose_model Vector_model LU_model Decomp_model Spectral_model
  Matrix_spec LU_spec Decomp_spec Spectral_spec Matrix_proofs Transpose_proofs Vector_proofs Sums MatProps_proofs VecProps_proofs
  LU_proofs Subst_proofs LUProps_proofs Chol_proofs Norm_proofs Ortho_proofs RealOps Householder_proofs DecompProps_proofs Eigen_proofs.
Import ListNotations.

Section Field.
Context {T : Type} {O : Ops T} (F : FieldLaws O).
Let L := fl_ring O F.
Add Ring TrEigV : (rl_ring O L).
Local Open Scope nat_scope.

(** Each column solves (A - lambda I) x = 0 by LU. *)
Lemma eigenvector_r_col A n f value g V h : is_mat A n n f -> is_col value n g -> eigenvector_r A value = Ret V -> is_mat V n n h ->
  forall c D, c < n -> is_mat D n n (fun i j => sub (f i j) (mul (delta i j) (g c))) ->
  exists w, solve_vec D (vzero n) = Ret (Ok w) /\ is_col w n (fun i => h i c).
Proof.
  intros HA Hv E HV. unfold eigenvector_r in E. rewrite (is_mat_rows _ _ _ _ HA) in E.
  destruct (mone_spec (T:=T) n) as (I & EI & HI). rewrite EI in E. cbn [bind] in E.
  rewrite (is_mat_len _ _ _ _ Hv), Nat.mul_1_r in E.
  destruct (for_loop_inv (fun k V => exists h, is_mat V n n h /\ forall c D, c < k -> is_mat D n n (fun i j => sub (f i j) (mul (delta i j) (g c))) ->
      exists w, solve_vec D (vzero n) = Ret (Ok w) /\ is_col w n (fun i => h i c)) _ 0 n (mzero n n) V E) as (h' & Hh' & Hz).
  - lia.
  - eexists. split; [apply mzero_spec|]. intros; lia.
  - intros c W W' Hc (k & HW & Hk) Es.
    pose proof (is_mat_vget value n 1 _ c 0 Hv ltac:(lia) ltac:(lia)) as Eg. cbn [Nat.mul Nat.add] in Eg. rewrite Eg in Es. cbn [bind] in Es.
    destruct (msub_spec A _ n n f _ HA (mapply_spec (fun x => mul x (g c)) I n n _ HI)) as (D & ED & HD).
    unfold mmul_scalar in Es. rewrite ED in Es. cbn [bind] in Es.
    destruct (solve_vec_total D n _ (vzero n) _ HD (vzero_spec n)) as (w & x & Ew & Hw). rewrite Ew in Es. cbn [bind runwrap] in Es.
    destruct (mset_column_spec W n n k w x c HW Hw) as (B & EB & HB); [lia|]. rewrite EB in Es. injection Es as <-.
    exists (fun a b => if b =? c then x a else k a b). split; [exact HB|].
    intros c' D' Hc' HD'. destruct (Nat.eqb_spec c' c) as [->|Hne].
    + assert (D' = D) by (eapply is_mat_unique; [exact HD'|exact HD]). subst D'. exists w. split; assumption.
    + apply (Hk c' D'); auto. lia.
  - intros c D Hc HD. destruct (Hz c D Hc HD) as (w & Ew & Hw). exists w. split; [exact Ew|].
    eapply is_mat_ext; [|exact Hw]. intros i j Hi Hj. exact (is_mat_entry_unique _ _ _ _ _ i c Hh' HV Hi Hc).
Qed.

(** Exactly one zero pivot, with P*D = L*U: solving D x = 0 finds a vector of the kernel with a component 1. *)
Lemma solve_null D n f d l u p : is_mat D n n f -> dec_lu D = Ret (Ok d) -> is_mat (lu_l d) n n l -> is_mat (lu_u d) n n u ->
  p < n -> u p p = zero -> (forall k, k < n -> k <> p -> u k k <> zero) -> (forall r, p < r < n -> l r p = zero) ->
  exists w x, solve_vec D (vzero n) = Ret (Ok w) /\ is_col w n x /\ x p = one /\ forall r, r < n -> mvf n f x r = zero.
Proof.
  intros HD Ed Hl Hu Hp Hz Hnz Hlz.
  destruct (dec_lu_spec F D n f HD) as (Lm & U & P & a & s & E & HL & HU & HP & Hs & He).
  rewrite Ed in E. injection E as ->. cbn [lu_l lu_u lu_p] in *.
  assert (El : forall r c, r < n -> c < n -> l r c = lpart a r c) by (intros; apply (is_mat_entry_unique _ _ _ _ _ _ _ Hl HL); assumption).
  assert (Eu : forall r c, r < n -> c < n -> u r c = upart a r c) by (intros; apply (is_mat_entry_unique _ _ _ _ _ _ _ Hu HU); assumption).
  assert (He' : forall r c, r < n -> c < n -> f (s r) c = mulf n (lpart a) (upart a) r c).
  { intros r c Hr Hc. rewrite He by assumption. unfold lu_err.
    destruct (Nat.ltb_spec c r) as [Hcr|]; cbn [andb]; [|ring].
    destruct (eqb (a c c) zero) eqn:Ez; [|ring].
    destruct (Nat.eq_dec c p) as [->|Hne].
    - specialize (Hlz r ltac:(lia)). rewrite El in Hlz by lia. unfold lpart in Hlz. destruct (Nat.ltb_spec p r); [|lia]. rewrite Hlz. ring.
    - exfalso. apply (Hnz c Hc Hne). rewrite Eu by assumption. rewrite upart_diag. apply (fl_eq O F). exact Ez. }
  unfold solve_vec. rewrite Ed. cbn [bind runwrap lu_p lu_l lu_u].
  destruct (mmul_vec_spec P n n _ (vzero n) _ HP (vzero_spec n)) as (pb & E1 & H1). rewrite E1. cbn [bind].
  destruct (subst_forward_vec_spec Lm n _ pb _ HL H1) as (y & yf & E2 & H2 & S2). rewrite E2. cbn [bind].
  destruct (subst_backward_vec_spec U n _ y _ HU H2) as (x & xf & E3 & H3 & S3). rewrite E3. cbn [bind].
  exists x, xf. split; [reflexivity|]. split; [exact H3|].
  assert (Hb0 : forall r, sumn n (fun k => mul (perm_fun s r k) zero) = (@zero T O)) by (intros r; apply (sumn_zero_ext L); intros; ring).
  assert (Hy : forall r, r < n -> mvf n (lpart a) yf r = zero).
  { intros r Hr. rewrite <- (Hb0 r).
    apply (proj1 (lpart_lower_sys F n a yf (fun r => sumn n (fun k => mul (perm_fun s r k) zero)) r Hr)).
    apply (fwd_sol_eq F); [exact S2|exact Hr|]. rewrite lpart_diag. apply (fl_one_zero O F). }
  assert (Hy0 : forall r, r < n -> yf r = zero).
  { intros r Hr. apply (lower_sys_unique F n (lpart a) yf (fun _ => zero) (fun _ => zero)); [| | |exact Hr].
    - intros k Hk. rewrite lpart_diag. apply (fl_one_zero O F).
    - intros k Hk. apply (proj2 (lpart_lower_sys F n a yf (fun _ => zero) k Hk)). apply Hy. exact Hk.
    - intros k Hk. unfold lower_sys. apply (sumn_zero_ext L). intros l' _. destruct (l' <=? k); ring. }
  assert (Hxp : xf p = one).
  { rewrite (S3 p Hp). rewrite upart_diag. rewrite <- upart_diag, <- Eu by assumption. rewrite Hz.
    rewrite (proj2 (fl_eq O F zero zero) eq_refl). reflexivity. }
  split; [exact Hxp|].
  assert (Hup : forall k, k < n -> k <> p -> upper_sys n (upart a) xf yf k).
  { intros k Hk Hne. apply (bwd_sol_eq F); [exact S3|exact Hk|]. rewrite <- Eu by assumption. apply Hnz; assumption. }
  assert (Hx0 : forall k, p < k < n -> xf k = zero).
  { intros k Hk. remember (n - k) as e eqn:Ee. revert k Hk Ee. induction e as [e IH] using (well_founded_induction lt_wf). intros k Hk Ee.
    pose proof (Hup k ltac:(lia) ltac:(lia)) as Hs'. unfold upper_sys in Hs'. rewrite Hy0 in Hs' by lia.
    rewrite (sumn_single L n k) in Hs'; [|lia|].
    - rewrite Nat.leb_refl in Hs'.
      assert (Hu0 : upart a k k <> zero) by (rewrite <- Eu by lia; apply Hnz; lia).
      exact (mul_zero_inv F _ _ Hu0 Hs').
    - intros j Hj Hne. destruct (Nat.leb_spec k j); [|reflexivity]. rewrite (IH (n - j) ltac:(lia) j ltac:(lia) eq_refl). ring. }
  assert (HU0 : forall r, r < n -> mvf n (upart a) xf r = yf r).
  { intros r Hr. apply (proj1 (upart_upper_sys F n a xf yf r Hr)). destruct (Nat.eq_dec r p) as [->|Hne]; [|apply Hup; assumption].
    unfold upper_sys. rewrite Hy0 by assumption. apply (sumn_zero_ext L). intros j Hj.
    destruct (Nat.leb_spec p j); [|reflexivity]. destruct (Nat.eq_dec j p) as [->|Hne].
    - rewrite <- Eu by assumption. rewrite Hz. ring.
    - rewrite Hx0 by lia. ring. }
  apply (lu_solves F n f a s (fun _ => zero) yf xf Hs He'); [exact Hy|exact HU0].
Qed.
End Field.

Local Open Scope R_scope.
(** A kernel vector of A - lambda I is an eigenvector. *)
Lemma kernel_eigen n (a : nat -> nat -> R) l x : (forall r, (r < n)%nat -> mvf n (fun i j => sub (a i j) (mul (delta i j) l)) x r = 0) ->
  forall i, (i < n)%nat -> sumn n (fun j => a i j * x j) = l * x i.
Proof.
  intros H i Hi. pose proof (H i Hi) as E. unfold mvf in E.
  assert (E2 : sumn n (fun j => a i j * x j) = sumn n (fun c => mul (sub (a i c) (mul (delta i c) l)) (x c)) + l * sumn n (fun c => mul (delta i c) (x c))).
  { rewrite <- sumn_R_mul_l, <- sumn_R_add. apply sumn_ext. intros c Hc. simpl. ring. }
  rewrite E2, E. rewrite (sumn_delta_l R_RingLaws n i x Hi). ring.
Qed.
Lemma eigen_kernel n (a : nat -> nat -> R) l x : (forall i, (i < n)%nat -> sumn n (fun j => a i j * x j) = l * x i) ->
  forall r, (r < n)%nat -> mvf n (fun i j => sub (a i j) (mul (delta i j) l)) x r = 0.
Proof.
  intros H i Hi. pose proof (H i Hi) as E. unfold mvf.
  assert (E2 : sumn n (fun j => a i j * x j) = sumn n (fun c => mul (sub (a i c) (mul (delta i c) l)) (x c)) + l * sumn n (fun c => mul (delta i c) (x c))).
  { rewrite <- sumn_R_mul_l, <- sumn_R_add. apply sumn_ext. intros c Hc. simpl. ring. }
  rewrite E, (sumn_delta_l R_RingLaws n i x Hi) in E2. lra.
Qed.

(** The LU factors of a 2 x 2 matrix. *)
Lemma dec_lu_two (D : matrix R) f : is_mat D 2 2 f ->
  let k := if Rlt_dec (f 0%nat 0%nat) (f 1%nat 0%nat) then 1%nat else 0%nat in
  let p := f k 0%nat in let q := f k 1%nat in let p' := f (1 - k)%nat 0%nat in let q' := f (1 - k)%nat 1%nat in
  let m := if Req_EM_T p 0 then p' else p' / p in
  exists d l u, dec_lu D = Ret (Ok d) /\ is_mat (lu_l d) 2 2 l /\ is_mat (lu_u d) 2 2 u /\ 
    l 1%nat 0%nat = m /\ u 0%nat 0%nat = p /\ u 0%nat 1%nat = q /\ u 1%nat 1%nat = q' - m * q.
Proof.
  intros HD k p q p' q' m.
  destruct (dec_lu_gen (fun i a s => match i with 0%nat => a = f | S _ => forall r c, (r < 2)%nat -> (c < 2)%nat -> a r c = elimf 0 (swapf 0 k f) r c end) D 2 f HD)
    as (L & U & P & a & s & E & HL & HU & HP & Hs & Ha).
  - reflexivity.
  - intros i a s k' Hk Ek Hs Hi. destruct i as [|[|i]]; [| |lia].
    + subst a. intros r c _ _. f_equal. f_equal. rewrite Ek. cbn [Nat.sub pick Nat.add]. unfold k.
      change (ltb (f 0%nat 0%nat) (f 1%nat 0%nat)) with (R_ltb (f 0%nat 0%nat) (f 1%nat 0%nat)). unfold R_ltb. destruct (Rlt_dec _ _); reflexivity.
    + replace k' with 1%nat by lia. intros r c Hr Hc. rewrite <- Hi by assumption. unfold elimf at 1, swapf at 1.
      destruct (Nat.leb_spec r 1); [|lia]. destruct r as [|[|r]]; [reflexivity|reflexivity|lia].
  - eexists _, _, _. split; [exact E|]. cbn [lu_l lu_u]. split; [exact HL|]. split; [exact HU|].
    unfold lpart, upart. cbn [Nat.ltb Nat.leb]. rewrite !Ha by lia. unfold elimf, lu_fac. cbn [Nat.ltb Nat.leb Nat.eqb].
    change (eqb (swapf 0 k f 0%nat 0%nat) zero) with (R_eqb (swapf 0 k f 0%nat 0%nat) 0).
    assert (E00 : swapf 0 k f 0%nat 0%nat = p) by reflexivity.
    assert (E01 : swapf 0 k f 0%nat 1%nat = q) by reflexivity.
    assert (E10 : swapf 0 k f 1%nat 0%nat = p') by (unfold p', k, swapf; destruct (Rlt_dec _ _); reflexivity).
    assert (E11 : swapf 0 k f 1%nat 1%nat = q') by (unfold q', k, swapf; destruct (Rlt_dec _ _); reflexivity).
    rewrite E00, E01, E10, E11. unfold R_eqb. unfold m. destruct (Req_EM_T p 0); cbn [negb]; auto.
Qed.

(** Solving with A - lambda I, for the matrices of [eigenvector_r]. *)
Lemma eigvec_two (A V : matrix R) a v h c D d l u p : is_mat A 2 2 a -> is_col v 2 (fun i => a i i) -> eigenvector_r A v = Ret V -> is_mat V 2 2 h ->
  (c < 2)%nat -> is_mat D 2 2 (fun i j => sub (a i j) (mul (delta i j) (a c c))) -> dec_lu D = Ret (Ok d) -> is_mat (lu_l d) 2 2 l -> is_mat (lu_u d) 2 2 u ->
  (p < 2)%nat -> u p p = zero -> (forall k, (k < 2)%nat -> k <> p -> u k k <> zero) -> (forall r, (p < r < 2)%nat -> l r p = zero) ->
  is_eigenvector 2 a (a c c) (fun i => h i c).
Proof.
  intros HA Hv EV HV Hc HD Ed Hl Hu Hp Hz Hnz Hlz.
  destruct (solve_null R_FieldLaws D 2 _ d l u p HD Ed Hl Hu Hp Hz Hnz Hlz) as (w & x & Ew & Hw & Hx1 & Hk).
  destruct (eigenvector_r_col A 2 a v _ V h HA Hv EV HV c D Hc HD) as (w' & Ew' & Hw').
  rewrite Ew in Ew'. injection Ew' as <-.
  assert (Hxh : forall i, (i < 2)%nat -> h i c = x i) by (intros i Hi; exact (is_mat_entry_unique _ _ _ _ _ i 0%nat Hw' Hw Hi ltac:(lia))).
  split.
  - exists p. split; [exact Hp|]. rewrite Hxh by exact Hp. rewrite Hx1. simpl. lra.
  - intros i Hi. rewrite Hxh by exact Hi. rewrite <- (kernel_eigen 2 a _ x Hk i Hi). apply sumn_ext. intros j Hj. rewrite Hxh by exact Hj. reflexivity.
Qed.

Lemma eigen_diff (A : matrix R) a l : is_mat A 2 2 a -> exists D, is_mat D 2 2 (fun i j => sub (a i j) (mul (delta i j) l)).
Proof.
  intros HA. destruct (mone_spec (T:=R) 2) as (I & EI & HI).
  destruct (msub_spec A _ 2 2 a _ HA (mapply_spec (fun x => mul x l) I 2 2 _ HI)) as (D & ED & HD). exists D. exact HD.
Qed.

Lemma dec_eigen_lower eps (A : matrix R) a : is_mat A 2 2 a -> a 0%nat 1%nat = 0 -> a 1%nat 0%nat <> 0 ->
  exists v V h, dec_eigen eps A = Ret (v, V) /\ is_col v 2 (fun i => a i i) /\ is_mat V 2 2 h /\
    (0 < a 1%nat 0%nat -> forall c, (c < 2)%nat -> is_eigenvector 2 a (a c c) (fun i => h i c)) /\
    (a 1%nat 0%nat < 0 -> ~ is_eigenvector 2 a (a 0%nat 0%nat) (fun i => h i 0%nat)).
Proof.
  intros HA H01 H10.
  destruct (proj2 (eigenvalue_r_two eps A a HA) H10) as (v & Ev & Hv).
  destruct (eigenvector_r_total A 2 a v _ HA Hv) as (V & h & EV & HV).
  exists v, V, h. split; [apply (proj2 (dec_eigen_values eps A 2 a HA ltac:(lia) v V)); split; assumption|].
  split; [exact Hv|]. split; [exact HV|]. split.
  - intros Hpos c Hc. destruct (eigen_diff A a (a c c) HA) as (D & HD).
    destruct (dec_lu_two D _ HD) as (d & l & u & Ed & Hl & Hu & El & E00 & E01 & E11).
    assert (Hc' : c = 0%nat \/ c = 1%nat) by lia.
    destruct Hc' as [Hc0|Hc0]; rewrite Hc0 in *; clear Hc0 Hc.
    + cbv beta in El, E00, E01, E11. unfold delta in El, E00, E01, E11. cbn [Nat.eqb] in El, E00, E01, E11. simpl in El, E00, E01, E11. rewrite ?H01 in El, E00, E01, E11.
      destruct (Rlt_dec (a 0%nat 0%nat - 1 * a 0%nat 0%nat) (a 1%nat 0%nat - 0 * a 0%nat 0%nat)) as [_|Hf]; [|exfalso; apply Hf; lra].
      simpl in El, E00, E01, E11.
      destruct (Req_EM_T (a 1%nat 0%nat - 0 * a 0%nat 0%nat) 0) as [E0|E0]; [lra|].
      assert (Em : (a 0%nat 0%nat - 1 * a 0%nat 0%nat) / (a 1%nat 0%nat - 0 * a 0%nat 0%nat) = 0) by (replace (a 0%nat 0%nat - 1 * a 0%nat 0%nat) with 0 by ring; unfold Rdiv; ring).
      rewrite Em in E11.
      apply (eigvec_two A V a v h 0 D d l u 1 HA Hv EV HV ltac:(lia) HD Ed Hl Hu ltac:(lia)).
      * rewrite E11, ?H01. simpl. ring.
      * intros k Hk Hne. replace k with 0%nat by lia. rewrite E00. simpl. lra.
      * intros r Hr. lia.
    + cbv beta in El, E00, E01, E11. unfold delta in El, E00, E01, E11. cbn [Nat.eqb] in El, E00, E01, E11. simpl in El, E00, E01, E11. rewrite ?H01 in El, E00, E01, E11.
      apply (eigvec_two A V a v h 1 D d l u 1 HA Hv EV HV ltac:(lia) HD Ed Hl Hu ltac:(lia)).
      * rewrite E11. destruct (Rlt_dec (a 0%nat 0%nat - 1 * a 1%nat 1%nat) (a 1%nat 0%nat - 0 * a 1%nat 1%nat)); simpl; rewrite ?H01;
          match goal with |- context [Req_EM_T ?z 0] => destruct (Req_EM_T z 0) as [E0|E0] end; rewrite ?H01; unfold Rdiv; ring.
      * intros k Hk Hne. replace k with 0%nat by lia. rewrite E00.
        destruct (Rlt_dec (a 0%nat 0%nat - 1 * a 1%nat 1%nat) (a 1%nat 0%nat - 0 * a 1%nat 1%nat)) as [Hlt|Hlt]; simpl; lra.
      * intros r Hr. lia.
  - intros Hneg [_ Hev]. destruct (eigen_diff A a (a 0%nat 0%nat) HA) as (D & HD).
    destruct (eigenvector_r_col A 2 a v _ V h HA Hv EV HV 0%nat D ltac:(lia) HD) as (w & Ew & Hw).
    destruct (dec_lu_two D _ HD) as (d & l & u & Ed & Hl & Hu & El & E00 & E01 & E11).
    cbv beta in El, E00, E01, E11. unfold delta in El, E00, E01, E11. cbn [Nat.eqb] in El, E00, E01, E11. simpl in El, E00, E01, E11.
    destruct (Rlt_dec (a 0%nat 0%nat - 1 * a 0%nat 0%nat) (a 1%nat 0%nat - 0 * a 0%nat 0%nat)) as [Hf|_]; [lra|].
    simpl in E00, E01, E11, El. rewrite ?H01 in El, E00, E01, E11.
    unfold solve_vec in Ew. rewrite Ed in Ew. cbn [bind runwrap] in Ew.
    destruct (dec_lu_spec R_FieldLaws D 2 _ HD) as (Lm & U & P & a' & s & E & HL & HU & HP & Hs & _).
    rewrite Ed in E. injection E as ->. cbn [lu_l lu_u lu_p] in *.
    destruct (mmul_vec_spec P 2 2 _ (vzero 2) _ HP (vzero_spec 2)) as (pb & E1 & H1). rewrite E1 in Ew. cbn [bind] in Ew.
    destruct (subst_forward_vec_spec Lm 2 _ pb _ HL H1) as (y & yf & E2 & H2 & S2). rewrite E2 in Ew. cbn [bind] in Ew.
    destruct (subst_backward_vec_spec U 2 _ y _ Hu H2) as (x & xf & E3 & H3 & S3). rewrite E3 in Ew. cbn [bind] in Ew. injection Ew as <-.
    assert (Hxh : forall i, (i < 2)%nat -> h i 0%nat = xf i) by (intros i Hi; exact (is_mat_entry_unique _ _ _ _ _ i 0%nat Hw H3 Hi ltac:(lia))).
    assert (Y0 : yf 0%nat = 0).
    { rewrite (S2 0%nat ltac:(lia)). rewrite lpart_diag. simpl. field. }
    assert (Y1 : yf 1%nat = 0).
    { rewrite (S2 1%nat ltac:(lia)). rewrite lpart_diag. simpl. rewrite Y0. simpl. field. }
    assert (X0 : xf 0%nat = 1).
    { rewrite (S3 0%nat ltac:(lia)). rewrite E00. replace (a 0%nat 0%nat - 1 * a 0%nat 0%nat) with 0 by ring.
      change (eqb 0 zero) with (R_eqb 0 0). unfold R_eqb. destruct (Req_EM_T 0 0); [reflexivity|contradiction]. }
    pose proof (Hev 1%nat ltac:(lia)) as Hrow. simpl in Hrow. rewrite !Hxh in Hrow by lia. rewrite X0 in Hrow.
    assert (X1 : xf 1%nat = if R_eqb (a 1%nat 1%nat - a 0%nat 0%nat) 0 then 1 else 0).
    { rewrite (S3 1%nat ltac:(lia)). rewrite E11.
      match goal with |- context [eqb ?z zero] => replace z with (a 1%nat 1%nat - a 0%nat 0%nat) end.
      2:{ destruct (Req_EM_T (a 0%nat 0%nat - 1 * a 0%nat 0%nat) 0) as [E0|E0]; [|exfalso; apply E0; ring]. rewrite ?H01. ring. }
      change (eqb (a 1%nat 1%nat - a 0%nat 0%nat) zero) with (R_eqb (a 1%nat 1%nat - a 0%nat 0%nat) 0).
      unfold bwd_sum. simpl. rewrite Y1. destruct (R_eqb _ 0); cbn [negb]; [reflexivity|]. unfold Rdiv. ring. }
    rewrite X1 in Hrow. unfold R_eqb in Hrow. destruct (Req_EM_T (a 1%nat 1%nat - a 0%nat 0%nat) 0); lra.
Qed.

(** 2 x 2: the diagonal holds the eigenvalues exactly when the matrix is triangular. *)
Lemma two_diag_eigen (a : nat -> nat -> R) : a 1%nat 0%nat <> 0 ->
  ((forall i, (i < 2)%nat -> is_eigenvalue 2 a (a i i)) <-> a 0%nat 1%nat = 0).
Proof.
  intros H10. split.
  - intros H. destruct (H 0%nat ltac:(lia)) as (x & (i & Hi & Hx) & Hev).
    pose proof (Hev 0%nat ltac:(lia)) as E0. pose proof (Hev 1%nat ltac:(lia)) as E1. simpl in E0, E1.
    assert (E2 : a 0%nat 1%nat * x 1%nat = 0) by lra. apply Rmult_integral in E2. destruct E2 as [E2|E2]; [exact E2|].
    rewrite E2 in E1. assert (E3 : a 1%nat 0%nat * x 0%nat = 0) by lra. apply Rmult_integral in E3. destruct E3 as [E3|E3]; [contradiction|].
    exfalso. apply Hx. destruct i as [|[|i]]; [exact E3|exact E2|lia].
  - intros H01 i Hi. destruct (Nat.eq_dec i 1) as [->|Hne].
    + exists (fun j => if (j =? 1)%nat then 1 else 0). split; [exists 1%nat; split; [lia|simpl; lra]|].
      intros j Hj. destruct j as [|[|j]]; [| |lia]; simpl; rewrite ?H01; ring.
    + replace i with 0%nat by lia.
      exists (fun j => if (j =? 1)%nat then a 1%nat 0%nat else a 0%nat 0%nat - a 1%nat 1%nat). split; [exists 1%nat; split; [lia|exact H10]|].
      intros j Hj. destruct j as [|[|j]]; [| |lia]; simpl; rewrite ?H01; ring.
Qed.

(** The cyclic permutation matrix of size 3 has 1 as its only eigenvalue. *)
Definition cyc3 : matrix R := mkMatrix 3 3 [0; 1; 0; 0; 0; 1; 1; 0; 0].
Lemma cyc3_eigen l : is_eigenvalue 3 (fun i j => nth (j * 3 + i) [0; 1; 0; 0; 0; 1; 1; 0; 0] 0) l -> l = 1.
Proof.
  intros (x & (i & Hi & Hx) & H). pose proof (H 0%nat ltac:(lia)) as E0. pose proof (H 1%nat ltac:(lia)) as E1. pose proof (H 2%nat ltac:(lia)) as E2.
  simpl in E0, E1, E2.
  assert (F0 : x 2%nat = l * x 0%nat) by lra. assert (F1 : x 0%nat = l * x 1%nat) by lra. assert (F2 : x 1%nat = l * x 2%nat) by lra.
  assert (F : (l * l * l - 1) * x 2%nat = 0). { transitivity (l * (l * (l * x 2%nat)) - x 2%nat); [ring|]. rewrite <- F2, <- F1, <- F0. ring. }
  apply Rmult_integral in F. destruct F as [F|F].
  - assert (G : (l - 1) * (l * l + l + 1) = 0) by (rewrite <- F; ring). apply Rmult_integral in G. destruct G as [G|G]; [lra|nra].
  - exfalso. rewrite F, Rmult_0_r in F2. rewrite F2, Rmult_0_r in F1. apply Hx. destruct i as [|[|[|i]]]; auto; lia.
Qed.

Lemma cyc3_wrong eps : exists v g, eigenvalue_r eps cyc3 = Ret v /\ is_col v 3 g /\
  exists i, (i < 3)%nat /\ ~ is_eigenvalue 3 (fun i j => nth (j * 3 + i) [0; 1; 0; 0; 0; 1; 1; 0; 0] 0) (g i).
Proof.
  pose proof (is_mat_list 0 3 3 [0; 1; 0; 0; 0; 1; 1; 0; 0] eq_refl) as HA. fold cyc3 in HA.
  destruct (dec_hessenberg_returns cyc3 3 _ HA) as (Q & H & E); [lia| | |].
  - intros i j Hi Hj Hij. assert (i = 2 /\ j = 0)%nat as [-> ->] by lia. reflexivity.
  - intros c Hc. destruct c as [|[|c]]; [simpl; lra|simpl; lra|lia].
  - destruct (eigenvalue_r_three eps cyc3 _ Q H HA E) as (v & Ev).
    destruct (eigenvalue_r_trace eps cyc3 3 _ v HA Ev) as (g & Hg & Ht). exists v, g. split; [exact Ev|]. split; [exact Hg|].
    simpl in Ht.
    destruct (Req_dec (g 0%nat) 1) as [G0|G0]; [|exists 0%nat; split; [lia|intros Hc; apply G0, cyc3_eigen, Hc]].
    destruct (Req_dec (g 1%nat) 1) as [G1|G1]; [|exists 1%nat; split; [lia|intros Hc; apply G1, cyc3_eigen, Hc]].
    exists 2%nat. split; [lia|]. intros Hc. apply cyc3_eigen in Hc. lra.
Qed.

Lemma dec_eigen_panics eps (A : matrix R) n a : is_mat A n n a -> (2 <= n)%nat -> (forall i, (1 <= i < n)%nat -> a i 0%nat = 0) -> dec_eigen eps A = Panic.
Proof.
  intros HA Hn Hz. unfold dec_eigen. rewrite (is_mat_rows _ _ _ _ HA), (is_mat_cols _ _ _ _ HA), Nat.eqb_refl. cbn [rassert bind].
  destruct (Nat.eqb_spec n 0); [lia|]. cbn [negb rassert bind]. unfold eigenvalue_r. rewrite (dec_hessenberg_panic A n a HA Hn Hz). reflexivity.
Qed.
Lemma dec_eigen_shape {T} {O : Ops T} {P : POps T} eps (A : matrix T) : rows A <> cols A \/ rows A = 0%nat -> dec_eigen eps A = Panic.
Proof.
  intros [H|H]; unfold dec_eigen.
  - destruct (Nat.eqb_spec (rows A) (cols A)); [contradiction|reflexivity].
  - rewrite H. destruct (cols A); reflexivity.
Qed.

(** 1 x 1. *)
Lemma dec_eigen_one eps (A : matrix R) a : is_mat A 1 1 a ->
  exists v V h, dec_eigen eps A = Ret (v, V) /\ is_col v 1 (fun _ => a 0%nat 0%nat) /\ is_mat V 1 1 h /\ h 0%nat 0%nat = 1 /\
    is_eigenvector 1 a (a 0%nat 0%nat) (fun i => h i 0%nat).
Proof.
  intros HA. destruct (eigenvalue_r_one eps A a HA) as (v & Ev & Hv).
  destruct (eigenvector_r_total A 1 a v _ HA Hv) as (V & h & EV & HV).
  exists v, V, h. split; [apply (proj2 (dec_eigen_values eps A 1 a HA ltac:(lia) v V)); split; assumption|].
  split; [exact Hv|]. split; [exact HV|].
  destruct (mone_spec (T:=R) 1) as (I & EI & HI).
  destruct (msub_spec A _ 1 1 a _ HA (mapply_spec (fun x => mul x (a 0%nat 0%nat)) I 1 1 _ HI)) as (D & ED & HD).
  destruct (eigenvector_r_col A 1 a v _ V h HA Hv EV HV 0%nat D ltac:(lia) HD) as (w & Ew & Hw).
  destruct (dec_lu_spec R_FieldLaws D 1 _ HD) as (Lm & U & P & b & s & E & HL & HU & HP & Hs & He).
  assert (Hs0 : s 0%nat = 0%nat) by (pose proof (proj1 Hs 0%nat ltac:(lia)); lia).
  pose proof (He 0%nat 0%nat ltac:(lia) ltac:(lia)) as E0. rewrite Hs0 in E0. unfold mulf, lu_err, lpart, upart, delta in E0. simpl in E0.
  destruct (solve_null R_FieldLaws D 1 _ (mkLU Lm U P) (lpart b) (upart b) 0 HD E HL HU) as (w' & x & Ew' & Hw' & Hx & _); [lia| | | |].
  - rewrite upart_diag. simpl. lra.
  - intros; lia.
  - intros; lia.
  - rewrite Ew in Ew'. injection Ew' as <-.
    assert (H1 : h 0%nat 0%nat = 1). { transitivity (x 0%nat); [exact (is_mat_entry_unique _ _ _ _ _ 0%nat 0%nat Hw Hw' ltac:(lia) ltac:(lia))|exact Hx]. }
    split; [exact H1|]. split; [exists 0%nat; split; [lia|rewrite H1; lra]|].
    intros i Hi. replace i with 0%nat by lia. simpl. rewrite H1. ring.
Qed.

Lemma dec_eigen_vector eps (A : matrix R) n a v V g h : is_mat A n n a -> dec_eigen eps A = Ret (v, V) ->
  is_col v n g -> is_mat V n n h ->
  forall c D d l u p, (c < n)%nat -> is_mat D n n (fun i j => a i j - delta i j * g c) -> dec_lu D = Ret (Ok d) ->
    is_mat (lu_l d) n n l -> is_mat (lu_u d) n n u ->
    (p < n)%nat -> u p p = 0 -> (forall k, (k < n)%nat -> k <> p -> u k k <> 0) -> (forall r, (p < r < n)%nat -> l r p = 0) ->
  is_eigenvector n a (g c) (fun i => h i c) /\ h p c = 1.
Proof.
  intros HA E Hv HV c D d l u p Hc HD Ed Hl Hu Hp Hz Hnz Hlz.
  apply (dec_eigen_values eps A n a HA) in E; [|lia]. destruct E as [_ E].
  destruct (solve_null R_FieldLaws D n _ d l u p HD Ed Hl Hu Hp Hz Hnz Hlz) as (w & x & Ew & Hw & Hx1 & Hk).
  destruct (eigenvector_r_col A n a v g V h HA Hv E HV c D Hc HD) as (w' & Ew' & Hw').
  rewrite Ew in Ew'. injection Ew' as <-.
  assert (Hxh : forall i, (i < n)%nat -> h i c = x i) by (intros i Hi; exact (is_mat_entry_unique _ _ _ _ _ i 0%nat Hw' Hw Hi ltac:(lia))).
  assert (H1 : h p c = 1) by (rewrite Hxh by exact Hp; exact Hx1).
  split; [|exact H1]. split; [exists p; split; [exact Hp|rewrite H1; lra]|].
  intros i Hi. rewrite Hxh by exact Hi. rewrite <- (kernel_eigen n a _ x Hk i Hi). apply sumn_ext. intros j Hj. rewrite Hxh by exact Hj. reflexivity.
Qed.

Lemma dec_eigen_zero eps (A : matrix R) n a v V g h : is_mat A n n a -> dec_eigen eps A = Ret (v, V) ->
  is_col v n g -> is_mat V n n h ->
  forall c D, (c < n)%nat -> is_mat D n n (fun i j => a i j - delta i j * g c) -> lu_regular D n ->
  forall i, (i < n)%nat -> h i c = 0.
Proof.
  intros HA E Hv HV c D Hc HD Hr i Hi. apply (dec_eigen_values eps A n a HA) in E; [|lia]. destruct E as [_ E].
  exact (eigenvector_r_zero R_FieldLaws A n a v g V h HA Hv E HV c D Hc HD Hr i Hi).
Qed.

Lemma sym2_vectors eps : exists v V h,
  dec_eigen eps (mkMatrix 2 2 [0; 1; 1; 0]) = Ret (v, V) /\ is_mat V 2 2 h /\ forall i c, (i < 2)%nat -> (c < 2)%nat -> h i c = 0.
Proof.
  pose proof (is_mat_list 0 2 2 [0; 1; 1; 0] eq_refl) as HA.
  destruct (proj2 (eigenvalue_r_two eps _ _ HA)) as (v & Ev & Hv); [simpl; lra|].
  destruct (eigenvector_r_total _ 2 _ v _ HA Hv) as (V & h & EV & HV).
  assert (E : dec_eigen eps (mkMatrix 2 2 [0; 1; 1; 0]) = Ret (v, V)) by (apply (proj2 (dec_eigen_values eps _ 2 _ HA ltac:(lia) v V)); auto).
  exists v, V, h. split; [exact E|]. split; [exact HV|]. intros i c Hi Hc.
  apply (dec_eigen_zero eps _ 2 _ v V _ h HA E Hv HV c (mkMatrix 2 2 [0; 1; 1; 0])); [exact Hc| | |exact Hi].
  - eapply is_mat_ext; [|exact HA]. intros r s Hr Hs. cbv beta.
    replace (nth (c * 2 + c) [0; 1; 1; 0] 0) with 0 by (destruct c as [|[|c]]; [reflexivity|reflexivity|lia]). ring.
  - destruct (dec_lu_two _ _ HA) as (d & l & u & Ed & Hl & Hu & El & E00 & E01 & E11). exists d. split; [exact Ed|].
    cbv beta in El, E00, E01, E11. simpl in El, E00, E01, E11.
    destruct (Rlt_dec 0 1) as [_|Hf]; [|exfalso; apply Hf; lra]. simpl in El, E00, E01, E11.
    destruct (Req_EM_T 1 0) as [H10|_]; [lra|].
    intros k x Hk Ex. rewrite (is_mat_get _ _ _ _ k k Hu) in Ex by lia. injection Ex as <-.
    destruct k as [|[|k]]; [rewrite E00; simpl; lra|rewrite E11; simpl; lra|lia].
Qed.
