(** The two Lanczos approximations of the crate against Euler's integral. *)
From Coq Require Import Arith Lia List Bool ZArith Reals Lra Psatz.
From Coquelicot Require Import Coquelicot.
From Verif Require Import Outcome Scalar RealOps Elem_model Int_model Ode_model Special_model.
From Verif Require Import Stat_spec Special_spec Discrete_proofs OdeOrder_proofs Continuous_proofs Normal_proofs Special_proofs GammaFun_proofs.
From Verif Require Import Stirling_proofs Lanczos_proofs.
Import ListNotations.
Local Open Scope R_scope.

(** ** The size of the second difference as a statement about coefficients *)
Section Check.
Variables (N : list Z) (bn bd hn mm sn en ed : Z).
Definition ck_B : list Z := [bn; bd].
Definition ck_B1 : list Z := [(bn + bd)%Z; bd].
Definition ck_M : list Z := [mm; 1%Z].
Definition sq (p : list Z) := pmul p p.
Definition ck_N1 := pshift N.
Definition ck_G (p : list Z) := psub (pmul (pder (pder p)) p) (sq (pder p)).
Definition ck_common := pmul (pmul (sq ck_M) (sq N)) (sq ck_N1).
Definition ck_BB := pmul (sq ck_B) (sq ck_B1).
Definition ck_BBM := pmul ck_BB (sq ck_M).
Definition ck_A : list Z :=
  padd (psub (pscale bd (pmul (pmul ck_B1 (sq ck_B)) ck_common)) (pscale bd (pmul (pmul ck_B (sq ck_B1)) ck_common)))
  (padd (pscale (hn * bd) (pmul (psub (sq ck_B) (sq ck_B1)) ck_common))
  (padd (psub (pmul ck_BBM (pmul (sq N) (pshift (ck_G N)))) (pmul ck_BBM (pmul (sq ck_N1) (ck_G N))))
        (pmul ck_BB (pmul (sq N) (sq ck_N1))))).
Definition ck_den := pmul ck_BB ck_common.
Definition ck_w4 := pscale ed (pmul (sq (sq [sn; 1%Z])) ck_A).
Definition ck_up := pscale en ck_den.
(** Coefficientwise |w4| <= up, with the common subterms computed once. *)
Fixpoint pdom (u w : list Z) : bool :=
  match u, w with [], _ => forallb (Z.eqb 0) w | _, [] => pnn u | a :: u', b :: w' => Z.leb (Z.abs b) a && pdom u' w' end.
Definition ck_fast : bool :=
  let n1 := pshift N in let s0 := sq N in let s1 := sq n1 in let nn := pmul s0 s1 in let g := ck_G N in
  let m2 := sq ck_M in let b2 := sq ck_B in let b12 := sq ck_B1 in let bb := pmul b2 b12 in let bbm := pmul bb m2 in
  let small := padd (psub (pscale bd (pmul ck_B1 b2)) (pscale bd (pmul ck_B b12))) (pscale (hn * bd) (psub b2 b12)) in
  let a := padd (pmul (pmul m2 small) nn) (padd (pmul bbm (psub (pmul s0 (pshift g)) (pmul s1 g))) (pmul bb nn)) in
  pdom (pmul (pscale en bbm) nn) (pmul (pscale ed (sq (sq [sn; 1%Z]))) a).
Definition ck_ok : bool :=
  ck_fast && Z.leb 1 bn && Z.leb 1 bd && Z.leb 1 mm && Z.leb 1 sn && Z.leb 1 ed && Z.eqb (2 * hn) (2 * bn + bd).
Lemma pdom_le u : forall w z, pdom u w = true -> 0 <= z -> Rabs (pe w z) <= pe u z.
Proof.
  induction u as [|a u IH]; intros w z H Hz; [|destruct w as [|b w]]; cbn [pdom pe] in *.
  { assert (Z0 : pe w z = 0); [|rewrite Z0, Rabs_R0; lra]. induction w as [|b w IH]; [reflexivity|]. cbn [forallb pe] in *.
    apply andb_true_iff in H. destruct H as [A B]. apply Z.eqb_eq in A. subst b. rewrite (IH B). ring. }
  { rewrite Rabs_R0. apply (pnn_pos (a :: u)); assumption. }
  apply andb_true_iff in H. destruct H as [A B]. apply Z.leb_le in A. apply IZR_le in A. rewrite abs_IZR in A. specialize (IH w z B Hz).
  eapply Rle_trans; [apply Rabs_triang|]. rewrite Rabs_mult, (Rabs_pos_eq z) by assumption.
  apply Rplus_le_compat; [exact A|]. now apply Rmult_le_compat_l.
Qed.
Lemma ck_fast_ok z : ck_fast = true -> 0 <= z -> 0 <= pe (psub ck_up ck_w4) z /\ 0 <= pe (padd ck_up ck_w4) z.
Proof.
  intros H Hz. unfold ck_fast in H. apply (pdom_le _ _ z) in H; [|exact Hz].
  match type of H with Rabs ?w <= ?u => assert (EW : w = pe ck_w4 z); [|assert (EU : u = pe ck_up z)] end.
  - unfold ck_w4, ck_A, ck_BBM, ck_BB, ck_common, ck_G, ck_N1, sq.
    repeat first [rewrite pe_mul|rewrite pe_add|rewrite pe_sub|rewrite pe_scale|rewrite pe_shift]. ring.
  - unfold ck_up, ck_den, ck_BB, ck_common, ck_N1, sq. repeat first [rewrite pe_mul|rewrite pe_scale|rewrite pe_shift]. ring.
  - rewrite EW, EU in H. apply Rabs_le_between in H. rewrite pe_sub, pe_add. lra.
Qed.
Hypothesis Hn : forall z, 0 <= z -> 0 < pe N z.
Lemma ck_bound z : ck_ok = true -> 0 < z ->
  Rabs (la_D2 N (IZR bn / IZR bd) (IZR mm) z) <= IZR en / IZR ed / (z + IZR sn) ^ 4.
Proof.
  unfold ck_ok. rewrite !andb_true_iff, !Z.leb_le, Z.eqb_eq. intros [[[[[[C Pbn] Pbd] Pmm] Psn] Ped] Eh] Hz.
  apply IZR_le in Pbn. apply IZR_le in Pbd. apply IZR_le in Pmm. apply IZR_le in Psn. apply IZR_le in Ped.
  apply (f_equal IZR) in Eh. rewrite plus_IZR, !mult_IZR in Eh.
  destruct (ck_fast_ok z C ltac:(lra)) as [P1 P2].
  rewrite pe_sub in P1. rewrite pe_add in P2.
  pose proof (Hn z ltac:(lra)) as N0. pose proof (Hn (z + 1) ltac:(lra)) as N1.
  assert (PB : 0 < IZR bn + z * IZR bd) by nra.
  assert (PB1 : 0 < IZR bn + IZR bd + z * IZR bd) by nra.
  assert (D : 0 < pe ck_den z).
  { unfold ck_den, ck_BB, ck_common, sq, ck_N1, ck_B, ck_B1, ck_M. rewrite !pe_mul, !pe_shift. cbn [pe]. rewrite plus_IZR.
    repeat apply Rmult_lt_0_compat; first [assumption|lra]. }
  assert (E : la_D2 N (IZR bn / IZR bd) (IZR mm) z = pe ck_A z / pe ck_den z).
  { unfold la_D2, la_q, la_n, la_n1, la_n2, ck_den, ck_A, ck_BBM, ck_BB, ck_common, ck_G, sq, ck_N1, ck_B, ck_B1, ck_M.
    repeat first [rewrite pe_mul|rewrite pe_add|rewrite pe_sub|rewrite pe_scale|rewrite pe_shift]. cbn [pe]. rewrite plus_IZR, mult_IZR.
    set (n := pe N z) in *. set (n' := pe N (z + 1)) in *.
    set (n1 := pe (pder N) z). set (n1' := pe (pder N) (z + 1)). set (n2 := pe (pder (pder N)) z). set (n2' := pe (pder (pder N)) (z + 1)).
    assert (Eh' : IZR hn = IZR bn + IZR bd / 2) by lra. rewrite Eh'.
    field. repeat split; try lra; nra. }
  rewrite E. set (w := (z + IZR sn) ^ 4). assert (W : 0 < w) by (apply pow_lt; lra).
  assert (E4 : pe ck_w4 z = IZR ed * (w * pe ck_A z)).
  { unfold ck_w4, sq, w. rewrite pe_scale, !pe_mul. cbn [pe]. ring. }
  assert (EU : pe ck_up z = IZR en * pe ck_den z) by (unfold ck_up; apply pe_scale).
  rewrite E4, EU in P1, P2.
  assert (K : IZR en / IZR ed / w = IZR en * pe ck_den z / (IZR ed * w) / pe ck_den z) by (field; lra).
  rewrite K. unfold Rdiv at 1. rewrite Rabs_mult, (Rabs_pos_eq (/ pe ck_den z)) by (left; now apply Rinv_0_lt_compat).
  unfold Rdiv at 1. apply Rmult_le_compat_r; [left; now apply Rinv_0_lt_compat|].
  assert (EW : 0 < IZR ed * w) by (apply Rmult_lt_0_compat; lra).
  apply Rmult_le_reg_r with (IZR ed * w); [exact EW|].
  replace (IZR en * pe ck_den z / (IZR ed * w) * (IZR ed * w)) with (IZR en * pe ck_den z) by (field; lra).
  rewrite <- (Rabs_pos_eq (IZR ed * w)) by lra. rewrite <- Rabs_mult. apply Rabs_le. lra.
Qed.
End Check.

(** ** The gamma function (gamma.rs:268-281) *)
Definition lz_N : list Z := [340966265533430090400000000000; 416238789122556677013343057920; 222288041949364154006002548704; 67828970150233406162491609224; 12934725852873055338469311460; 1578488045669745218679155700; 120383420138864624494412956; 5245833333334355445450276; 99999999999980993000000]%Z.
Lemma lz_ck : ck_ok lz_N 13 2 14 8 7 1212 10000000000000 = true.
Proof. vm_compute. reflexivity. Qed.
Lemma pe_pos_of N z : match N with [] => false | a :: p => Z.ltb 0 a && pnn p end = true -> 0 <= z -> 0 < pe N z.
Proof.
  destruct N as [|a p]; [discriminate|]. rewrite andb_true_iff, Z.ltb_lt. intros [A B] Hz. apply IZR_lt in A.
  cbn [pe]. pose proof (pnn_pos p z B Hz). assert (0 <= z * pe p z) by now apply Rmult_le_pos. lra.
Qed.
Lemma pe_deg_of N d z : pnn (pder N) = true -> pnn (psub (pscale d N) (0%Z :: pder N)) = true -> 0 <= z ->
  0 <= z * pe (pder N) z <= IZR d * pe N z.
Proof.
  intros A B Hz. pose proof (pnn_pos _ z A Hz) as P. split; [now apply Rmult_le_pos|].
  pose proof (pnn_pos _ z B Hz) as Q. rewrite pe_sub, pe_scale in Q. cbn [pe] in Q. lra.
Qed.
Lemma lz_n_pos z : 0 <= z -> 0 < pe lz_N z.
Proof. apply pe_pos_of. reflexivity. Qed.
Lemma lz_n_num z : lz_num z = pe lz_N z / 100000000000000000000000.
Proof. unfold lz_num, lz_N. cbn [pe]. field. Qed.
Lemma lz_S_ln z : 0 < z ->
  ln (lanczos_sum (z + 1)) - ln (lanczos_sum z) = ln (pe lz_N (z + 1)) - ln (pe lz_N z) + ln z - ln (z + 8).
Proof.
  intros Hz. rewrite !lanczos_sum_num by lra. rewrite !lz_n_num.
  pose proof (lz_n_pos z ltac:(lra)). pose proof (lz_n_pos (z + 1) ltac:(lra)).
  replace (z + 1 + 1) with (z + 2) by ring. replace (z + 1 + 2) with (z + 3) by ring. replace (z + 1 + 3) with (z + 4) by ring.
  replace (z + 1 + 4) with (z + 5) by ring. replace (z + 1 + 5) with (z + 6) by ring. replace (z + 1 + 6) with (z + 7) by ring. replace (z + 1 + 7) with (z + 8) by ring.
  set (n := pe lz_N z) in *. set (n' := pe lz_N (z + 1)) in *. set (c := 100000000000000000000000).
  set (Q := (z + 1) * (z + 2) * (z + 3) * (z + 4) * (z + 5) * (z + 6) * (z + 7)).
  assert (0 < Q) by (unfold Q; repeat apply Rmult_lt_0_compat; lra).
  assert (0 < c) by (unfold c; lra).
  replace (z * (z + 1) * (z + 2) * (z + 3) * (z + 4) * (z + 5) * (z + 6) * (z + 7)) with (z * Q) by (unfold Q; ring).
  fold Q. rewrite !ln_div by (try assumption; try lra; try (apply Rdiv_lt_0_compat; lra); apply Rmult_lt_0_compat; lra).
  rewrite !ln_mult by lra. lra.
Qed.
Lemma lz_lim : is_lim (fun z => ln (lanczos_sum z)) p_infty (ln (99999999999980993 / 100000000000000000)).
Proof.
  apply (filterlim_comp _ _ _ lanczos_sum ln (Rbar_locally p_infty) (locally (99999999999980993 / 100000000000000000))).
  - match goal with |- filterlim _ _ (locally ?c) => change (is_lim lanczos_sum p_infty c) end.
    apply (is_lim_ext (fun z => 99999999999980993 / 100000000000000000
      + 6765203681218851 / 10000000000000 * / (z + 0) - 12591392167224028 / 10000000000000 * / (z + 1)
      + 77132342877765313 / 100000000000000 * / (z + 2) - 17661502916214059 / 100000000000000 * / (z + 3)
      + 12507343278686905 / 1000000000000000 * / (z + 4) - 13857109526572012 / 100000000000000000 * / (z + 5)
      + 99843695780195716 / 10000000000000000000000 * / (z + 6) + 15056327351493116 / 100000000000000000000000 * / (z + 7))).
    { intros z. unfold lanczos_sum. rewrite !lit_R. rops. rewrite Rplus_0_r. unfold Rdiv. rewrite !Rinv_1, ?Rmult_1_r. reflexivity. }
    assert (Z : forall a c, is_lim (fun z => a * / (z + c)) p_infty 0).
    { intros a c. replace (Finite 0) with (Finite (a * 0)) by (f_equal; ring). apply (is_lim_scal_l (fun z => / (z + c)) a p_infty 0). apply lim_inv_shift. }
    replace (Finite (99999999999980993 / 100000000000000000)) with (Finite (99999999999980993 / 100000000000000000 + 0 - 0 + 0 - 0 + 0 - 0 + 0 + 0)) by (f_equal; ring).
    repeat first [apply Z|apply is_lim_const|match goal with |- is_lim (fun z => _ - _) _ _ => apply is_lim_minus' | |- is_lim (fun z => _ + _) _ _ => apply is_lim_plus' end].
  - apply (ex_derive_continuous ln). auto_derive. lra.
Qed.
Lemma lz_F z : 0 < z -> lanczos z = exp (la_F (13 / 2) (1 / 2 * ln (2 * PI) - 13 / 2) lanczos_sum z).
Proof.
  intros Hz. pose proof PI_RGT_0 as PP. unfold la_F.
  replace (1 / 2 * ln (2 * PI) - 13 / 2 + (z - 1 / 2) * ln (z + 13 / 2) - z + ln (lanczos_sum z))
    with (1 / 2 * ln 2 + 1 / 2 * ln PI + (z - 1 / 2) * ln (z + 13 / 2) + - (z + 13 / 2) + ln (lanczos_sum z))
    by (rewrite ln_mult by lra; field).
  rewrite !exp_plus. rewrite (exp_ln (lanczos_sum z)) by now apply lanczos_sum_pos.
  unfold lanczos. rewrite !lit_R. rops. rewrite R_pow_pos by lra.
  assert (SQ : forall x, 0 < x -> exp (1 / 2 * ln x) = sqrt x).
  { intros x Hx. change (exp (1 / 2 * ln x)) with (Rpower x (1 / 2)). replace (1 / 2) with (/ 2) by field. now apply Rpower_sqrt. }
  rewrite !SQ by lra. unfold Rpower. replace (2 / 1) with 2 by field. reflexivity.
Qed.
(** The relative error: exp of the bound on the logarithm. *)
Lemma ratio_of_ln v g d : 0 < g -> 0 < d -> d < 1 -> Rabs (v - ln g) <= d -> Rabs (exp v - g) <= d / (1 - d) * g.
Proof.
  intros Hg Hd Hd1 B. apply Rabs_le_between in B.
  assert (U : exp d <= / (1 - d)).
  { pose proof (exp_ineq1_le (- d)) as X. rewrite exp_Ropp in X. pose proof (exp_pos d).
    apply Rmult_le_reg_r with ((1 - d) * / exp d); [apply Rmult_lt_0_compat; [lra|now apply Rinv_0_lt_compat]|].
    replace (exp d * ((1 - d) * / exp d)) with (1 - d) by (field; lra).
    replace (/ (1 - d) * ((1 - d) * / exp d)) with (/ exp d) by (field; lra). lra. }
  assert (L : 1 - d <= exp (- d)) by (pose proof (exp_ineq1_le (- d)); lra).
  assert (E : exp v = g * exp (v - ln g)) by (rewrite <- (exp_ln g) at 1 by assumption; rewrite <- exp_plus; f_equal; ring).
  assert (A1 : exp (v - ln g) <= exp d).
  { destruct (Rle_lt_or_eq_dec (v - ln g) d ltac:(lra)) as [X|X]; [left; now apply exp_increasing|rewrite X; lra]. }
  assert (A2 : exp (- d) <= exp (v - ln g)).
  { destruct (Rle_lt_or_eq_dec (- d) (v - ln g) ltac:(lra)) as [X|X]; [left; now apply exp_increasing|rewrite X; lra]. }
  assert (F : d / (1 - d) = / (1 - d) - 1) by (field; lra).
  assert (G : d <= d / (1 - d)). { apply Rmult_le_reg_r with (1 - d); [lra|]. replace (d / (1 - d) * (1 - d)) with d by (field; lra). nra. }
  rewrite E. replace (g * exp (v - ln g) - g) with ((exp (v - ln g) - 1) * g) by ring.
  rewrite Rabs_mult, (Rabs_pos_eq g) by lra. apply Rmult_le_compat_r; [lra|]. apply Rabs_le. lra.
Qed.
Lemma lanczos_ln z g : 1 / 2 <= z -> euler_gamma z g ->
  Rabs (la_F (13 / 2) (1 / 2 * ln (2 * PI) - 13 / 2) lanczos_sum z - ln g) <= 33 / 10000000000000.
Proof.
  intros Hz Hg.
  pose proof (la_accuracy lz_N 8 (13 / 2) 8 7 (202 / 10000000000000) (1 / 2 * ln (2 * PI) - 13 / 2) (ln (99999999999980993 / 100000000000000000)) lanczos_sum) as A.
  assert (B : Rabs (la_F (13 / 2) (1 / 2 * ln (2 * PI) - 13 / 2) lanczos_sum z - ln g
                 - (1 / 2 * ln (2 * PI) - 13 / 2 + 13 / 2 + ln (99999999999980993 / 100000000000000000) - 1 / 2 * ln (2 * PI)))
              <= 202 / 10000000000000 / (z + 7 - 1)).
  { apply A; clear A; try lra; try assumption.
    - exact lz_n_pos.
    - intros t Ht. apply pe_deg_of; [reflexivity|reflexivity|assumption].
    - exact lz_S_ln.
    - exact lz_lim.
    - intros t Ht. pose proof (ck_bound lz_N 13 2 14 8 7 1212 10000000000000 lz_n_pos t lz_ck Ht) as C.
      replace (6 * (202 / 10000000000000)) with (1212 / 10000000000000) by field. exact C. }
  clear A. replace (1 / 2 * ln (2 * PI) - 13 / 2 + 13 / 2 + ln (99999999999980993 / 100000000000000000) - 1 / 2 * ln (2 * PI))
    with (ln (99999999999980993 / 100000000000000000)) in B by ring.
  assert (L1 : - (191 / 1000000000000000) <= ln (99999999999980993 / 100000000000000000) <= 0).
  { split.
    - pose proof (ln_le_sub1 (/ (99999999999980993 / 100000000000000000)) ltac:(apply Rinv_0_lt_compat; lra)) as X.
      rewrite ln_Rinv in X by lra. replace (/ (99999999999980993 / 100000000000000000)) with (100000000000000000 / 99999999999980993) in X by field. lra.
    - pose proof (ln_le_sub1 (99999999999980993 / 100000000000000000) ltac:(lra)). lra. }
  assert (L2 : 202 / 10000000000000 / (z + 7 - 1) <= 202 / 10000000000000 * (2 / 13)).
  { unfold Rdiv at 1. apply Rmult_le_compat_l; [lra|]. replace (2 / 13) with (/ (13 / 2)) by field. apply Rinv_le_contravar; lra. }
  apply Rabs_le_between in B. apply Rabs_le. lra.
Qed.
Lemma lanczos_accuracy z g : 1 / 2 <= z -> euler_gamma z g -> Rabs (lanczos z - g) <= 4 / 1000000000000 * g.
Proof.
  intros Hz Hg. pose proof (euler_gamma_pos _ _ Hg) as Pg. rewrite lz_F by lra.
  pose proof (ratio_of_ln _ g (33 / 10000000000000) Pg ltac:(lra) ltac:(lra) (lanczos_ln z g Hz Hg)) as A.
  eapply Rle_trans; [exact A|]. apply Rmult_le_compat_r; [lra|].
  replace (33 / 10000000000000 / (1 - 33 / 10000000000000)) with (33 / 9999999999967) by field. lra.
Qed.
