(** Complex arithmetic in binary64: normwise rounding errors. *)
From Coq Require Import Arith Lia List Bool ZArith Reals Lra Psatz SpecFloat.
From Flocq Require Import Core IEEE754.BinarySingleNaN.
From Verif Require Import Outcome Scalar RealOps Elem_model Complex_model F64_spec F64Cplx_spec F64QR_spec
  F64Flocq F64Err_proofs F64Lin_proofs F64Chol_proofs F64Grid_proofs F64Euler_proofs F64QR_proofs.
Local Open Scope R_scope.

(** ** The modulus *)
Lemma cmod_pos z : 0 <= cmod z. Proof. apply sqrt_pos. Qed.
Lemma cmod_arg_pos (z : cplx R) : 0 <= re z * re z + im z * im z.
Proof. pose proof (Rle_0_sqr (re z)) as H1. pose proof (Rle_0_sqr (im z)) as H2. unfold Rsqr in *. lra. Qed.
Lemma cmod_sq z : cmod z * cmod z = re z * re z + im z * im z.
Proof. apply sqrt_sqrt, cmod_arg_pos. Qed.
Lemma cmod_le z a : 0 <= a -> re z * re z + im z * im z <= a * a -> cmod z <= a.
Proof. intros Ha H. unfold cmod. rewrite <- (sqrt_square a Ha). now apply sqrt_le_1_alt. Qed.
Lemma re_le z : Rabs (re z) <= cmod z.
Proof. apply sq_le_abs; [apply cmod_pos|]. rewrite cmod_sq. pose proof (Rle_0_sqr (im z)) as H. unfold Rsqr in H. lra. Qed.
Lemma im_le z : Rabs (im z) <= cmod z.
Proof. apply sq_le_abs; [apply cmod_pos|]. rewrite cmod_sq. pose proof (Rle_0_sqr (re z)) as H. unfold Rsqr in H. lra. Qed.
Lemma sq_of_abs x a : Rabs x <= a -> x * x <= a * a.
Proof.
  intro H. pose proof (Rabs_pos x). replace (x * x) with (Rabs x * Rabs x) by (rewrite <- Rabs_mult; apply Rabs_pos_eq; pose proof (Rle_0_sqr x) as Q; exact Q).
  apply Rmult_le_compat; assumption.
Qed.
Lemma cmod_comp z a : Rabs (re z) <= a -> Rabs (im z) <= a -> cmod z <= 1415 / 1000 * a.
Proof.
  intros H1 H2. assert (0 <= a) by (eapply Rle_trans; [apply Rabs_pos|exact H1]). apply cmod_le; [lra|].
  pose proof (sq_of_abs _ _ H1). pose proof (sq_of_abs _ _ H2). assert (0 <= a * a) by nra. nra.
Qed.
Lemma cmod_scale z e t : 0 <= t -> Rabs (re e) <= t * Rabs (re z) -> Rabs (im e) <= t * Rabs (im z) -> cmod e <= t * cmod z.
Proof.
  intros Ht H1 H2. apply cmod_le; [apply Rmult_le_pos; [exact Ht|apply cmod_pos]|].
  replace (t * cmod z * (t * cmod z)) with (t * t * (cmod z * cmod z)) by ring. rewrite cmod_sq.
  pose proof (sq_of_abs _ _ H1) as Q1. pose proof (sq_of_abs _ _ H2) as Q2.
  assert (E : forall x, t * Rabs x * (t * Rabs x) = t * t * (x * x)). { intro x. replace (t * Rabs x * (t * Rabs x)) with (t * t * (Rabs x * Rabs x)) by ring. rewrite <- Rabs_mult, (Rabs_pos_eq (x * x)) by (pose proof (Rle_0_sqr x) as Q; exact Q). ring. }
  rewrite E in Q1, Q2. lra.
Qed.
Lemma cauchy a b c d : Rabs (a * c) + Rabs (b * d) <= cmod (mkC a b) * cmod (mkC c d).
Proof.
  rewrite <- (Rabs_pos_eq (Rabs (a * c) + Rabs (b * d))) by (pose proof (Rabs_pos (a * c)); pose proof (Rabs_pos (b * d)); lra).
  apply sq_le_abs; [apply Rmult_le_pos; apply cmod_pos|].
  replace (cmod (mkC a b) * cmod (mkC c d) * (cmod (mkC a b) * cmod (mkC c d))) with ((cmod (mkC a b) * cmod (mkC a b)) * (cmod (mkC c d) * cmod (mkC c d))) by ring.
  rewrite !cmod_sq. simpl re. simpl im. rewrite !Rabs_mult.
  assert (S : forall x, Rabs x * Rabs x = x * x). { intro x. rewrite <- Rabs_mult. apply Rabs_pos_eq. pose proof (Rle_0_sqr x) as Q; exact Q. }
  rewrite <- (S a), <- (S b), <- (S c), <- (S d). generalize (Rabs a) (Rabs b) (Rabs c) (Rabs d). intros p q r s.
  pose proof (Rle_0_sqr (p * s - q * r)) as Q. unfold Rsqr in Q. lra.
Qed.
Lemma cmod_swap a b : cmod (mkC b a) = cmod (mkC a b).
Proof. unfold cmod. simpl. f_equal. ring. Qed.

(** ** Addition, subtraction, negation *)
Lemma cadd_f64 z w : cgood z -> cgood w -> cgood (cadd z w) ->
  cmod (csub (cval (cadd z w)) (cadd (cval z) (cval w))) <= uro * cmod (cadd (cval z) (cval w)).
Proof.
  intros ((V1 & F1) & (V2 & F2)) ((V3 & F3) & (V4 & F4)) ((V5 & F5) & (V6 & F6)).
  apply cmod_scale; [pose proof uro_pos; lra|apply (fadd_err _ _ V1 V3 F5)|apply (fadd_err _ _ V2 V4 F6)].
Qed.
Lemma csub_f64 z w : cgood z -> cgood w -> cgood (csub z w) ->
  cmod (csub (cval (csub z w)) (csub (cval z) (cval w))) <= uro * cmod (csub (cval z) (cval w)).
Proof.
  intros ((V1 & F1) & (V2 & F2)) ((V3 & F3) & (V4 & F4)) ((V5 & F5) & (V6 & F6)).
  apply cmod_scale; [pose proof uro_pos; lra|apply (fsub_err _ _ V1 V3 F5)|apply (fsub_err _ _ V2 V4 F6)].
Qed.
Lemma cneg_f64 z : cgood z -> cgood (cneg z) /\ cval (cneg z) = cneg (cval z) /\ cgood (cconj z) /\ cval (cconj z) = cconj (cval z).
Proof.
  intros (G1 & G2). destruct (fneg_good _ G1) as (H1 & E1). destruct (fneg_good _ G2) as (H2 & E2).
  split; [split; assumption|]. split; [unfold cval, cneg; cbn [re im]; rewrite E1, E2; reflexivity|]. split; [split; assumption|].
  unfold cval, cconj. cbn [re im]. rewrite E2. reflexivity.
Qed.

(** ** Multiplication *)
(** Two products and their sum or difference. *)
Lemma dot2_err p q x y P : Rabs x + Rabs y <= P -> Rabs (p - x) <= uro * Rabs x + eta64 -> Rabs (q - y) <= uro * Rabs y + eta64 ->
  forall s, Rabs (s - (p + q)) <= uro * Rabs (p + q) -> Rabs (s - (x + y)) <= 2001 / 1000 * uro * P + 3 * eta64.
Proof.
  intros HP Hp Hq s Hs. pose proof uro_pos as U. pose proof uro_tiny as U1. pose proof eta64_pos as E0.
  assert (P0 : 0 <= P) by (pose proof (Rabs_pos x); pose proof (Rabs_pos y); lra).
  assert (T1 : Rabs (p + q - (x + y)) <= uro * P + 2 * eta64).
  { replace (p + q - (x + y)) with ((p - x) + (q - y)) by ring. eapply Rle_trans; [apply Rabs_triang|].
    assert (uro * (Rabs x + Rabs y) <= uro * P) by (apply Rmult_le_compat_l; lra). lra. }
  assert (T2 : Rabs (p + q) <= P + (uro * P + 2 * eta64)).
  { replace (p + q) with ((p + q - (x + y)) + (x + y)) by ring. eapply Rle_trans; [apply Rabs_triang|]. pose proof (Rabs_triang x y). lra. }
  assert (T3 : uro * Rabs (p + q) <= uro * (P + (uro * P + 2 * eta64))) by (apply Rmult_le_compat_l; [lra|exact T2]).
  assert (UP : 0 <= uro * P) by (apply Rmult_le_pos; lra).
  replace (s - (x + y)) with ((s - (p + q)) + (p + q - (x + y))) by ring. eapply Rle_trans; [apply Rabs_triang|].
  assert (uro * (uro * P) <= / 1000000 * (uro * P)) by (apply Rmult_le_compat_r; [apply Rmult_le_pos; lra|lra]).
  assert (uro * (2 * eta64) <= / 1000000 * (2 * eta64)) by (apply Rmult_le_compat_r; lra). lra.
Qed.
Lemma cmul_comp z w : cgood z -> cgood w -> cgood (cmul z w) ->
  let e := csub (cval (cmul z w)) (cmul (cval z) (cval w)) in let B := 2001 / 1000 * uro * (cmod (cval z) * cmod (cval w)) + 3 * eta64 in
  Rabs (re e) <= B /\ Rabs (im e) <= B.
Proof.
  destruct z as [a b], w as [c d]. intros ((V1 & F1) & (V2 & F2)) ((V3 & F3) & (V4 & F4)) ((V5 & F5) & (V6 & F6)). cbv zeta.
  unfold cval, cmul, csub in *. cbn [re im] in *. change (@sub R R_ops) with Rminus. change (@mul R R_ops) with Rmult. change (@add R R_ops) with Rplus. split.
  - destruct (fsub_err _ _ (fvalid_mul _ _ V1 V3) (fvalid_mul _ _ V2 V4) F5) as (G1 & G2 & E & _).
    destruct (fmul_err _ _ V1 V3 G1) as (_ & _ & E1 & _). destruct (fmul_err _ _ V2 V4 G2) as (_ & _ & E2 & _).
    replace (fval a * fval c - fval b * fval d) with (fval a * fval c + - (fval b * fval d)) by ring.
    apply (dot2_err (fval (mul a c)) (- fval (mul b d))).
    + rewrite Rabs_Ropp. apply cauchy.
    + exact E1.
    + rewrite Rabs_Ropp. replace (- fval (mul b d) - - (fval b * fval d)) with (- (fval (mul b d) - fval b * fval d)) by ring. rewrite Rabs_Ropp. exact E2.
    + exact E.
  - destruct (fadd_err _ _ (fvalid_mul _ _ V2 V3) (fvalid_mul _ _ V1 V4) F6) as (G1 & G2 & E & _).
    destruct (fmul_err _ _ V2 V3 G1) as (_ & _ & E1 & _). destruct (fmul_err _ _ V1 V4 G2) as (_ & _ & E2 & _).
    apply (dot2_err (fval (mul b c)) (fval (mul a d))); [|exact E1|exact E2|exact E].
    rewrite <- (cmod_swap (fval a)). apply cauchy.
Qed.
Lemma cmul_f64 z w : cgood z -> cgood w -> cgood (cmul z w) ->
  cmod (csub (cval (cmul z w)) (cmul (cval z) (cval w))) <= 3 * uro * (cmod (cval z) * cmod (cval w)) + 5 * eta64.
Proof.
  intros Gz Gw G. destruct (cmul_comp z w Gz Gw G) as (H1 & H2). eapply Rle_trans; [apply (cmod_comp _ _ H1 H2)|].
  pose proof uro_pos. pose proof eta64_pos. assert (0 <= uro * (cmod (cval z) * cmod (cval w))).
  { apply Rmult_le_pos; [lra|]. apply Rmult_le_pos; apply cmod_pos. } lra.
Qed.

(** ** Division *)
Lemma quot_real N Nh D Dh P : 0 < D -> Rabs N <= P -> Rabs (Nh - N) <= 2001 / 1000 * uro * P + 3 * eta64 -> Rabs (Dh - D) <= 201 / 100 * uro * D ->
  0 < Dh /\ Rabs (Nh / Dh - N / D) <= 402 / 100 * uro * (P / D) + 31 / 10 * eta64 / D.
Proof.
  intros HD HN HNh HDh. pose proof uro_pos as U. pose proof uro_tiny as U1. pose proof eta64_pos as E0.
  assert (P0 : 0 <= P) by (pose proof (Rabs_pos N); lra).
  assert (UD : uro * D <= / 1000000 * D) by (apply Rmult_le_compat_r; lra).
  assert (L : 999 / 1000 * D <= Dh) by (revert HDh; unfold Rabs; destruct Rcase_abs; lra).
  assert (L0 : 0 < Dh) by lra. split; [exact L0|].
  replace (Nh / Dh - N / D) with (((Nh - N) + - (N / D * (Dh - D))) / Dh) by (field; lra).
  unfold Rdiv at 1. rewrite Rabs_mult, (Rabs_inv Dh), (Rabs_pos_eq Dh) by lra.
  assert (K : Rabs ((Nh - N) + - (N / D * (Dh - D))) <= 4011 / 1000 * uro * P + 3 * eta64).
  { eapply Rle_trans; [apply Rabs_triang|]. rewrite Rabs_Ropp.
    assert (ND : Rabs (N / D) <= P / D). { unfold Rdiv. rewrite Rabs_mult, (Rabs_inv D), (Rabs_pos_eq D) by lra. apply Rmult_le_compat_r; [left; apply Rinv_0_lt_compat; lra|exact HN]. }
    pose proof (mul_bound _ _ _ _ ND HDh) as M. replace (P / D * (201 / 100 * uro * D)) with (201 / 100 * uro * P) in M by (field; lra). lra. }
  assert (I : / Dh <= 10011 / 10000 * / D).
  { replace (10011 / 10000 * / D) with (/ (10000 / 10011 * D)) by (field; lra). apply Rinv_le_contravar; lra. }
  apply Rle_trans with ((4011 / 1000 * uro * P + 3 * eta64) * (10011 / 10000 * / D)).
  - apply Rmult_le_compat; [apply Rabs_pos|left; apply Rinv_0_lt_compat; lra|exact K|exact I].
  - assert (UP : 0 <= uro * P) by (apply Rmult_le_pos; lra). assert (ID : 0 < / D) by (apply Rinv_0_lt_compat; lra).
    assert (X : 0 <= uro * P * / D) by (apply Rmult_le_pos; lra). assert (Y : 0 < eta64 * / D) by (apply Rmult_lt_0_compat; lra).
    unfold Rdiv. lra.
Qed.
Lemma sqsum_f64 c d : fgood c -> fgood d -> Rabs (fval c) <= bpow radix2 510 -> Rabs (fval d) <= bpow radix2 510 ->
  bpow radix2 (-500) <= Rmax (Rabs (fval c)) (Rabs (fval d)) ->
  let D := fval c * fval c + fval d * fval d in let s := add (mul c c) (mul d d) in
  bpow radix2 (-1000) <= D /\ fgood s /\ Rabs (fval s - D) <= 201 / 100 * uro * D.
Proof.
  intros (Vc & Fc) (Vd & Fd) Bc Bd Hl D s. pose proof uro_pos as U. pose proof uro_tiny as U1. pose proof eta64_pos as E0. pose proof eta_small as E1.
  assert (sq0 : forall x : R, 0 <= x * x) by (intro x; exact (Rle_0_sqr x)).
  assert (sqb : forall x, Rabs x <= bpow radix2 510 -> x * x <= bpow radix2 1020).
  { intros x H. pose proof (sq_of_abs _ _ H) as Q. rewrite <- bpow_plus in Q. exact Q. }
  pose proof (sqb _ Bc) as Qc. pose proof (sqb _ Bd) as Qd. pose proof (sq0 (fval c)) as Pc. pose proof (sq0 (fval d)) as Pd.
  assert (B3 : 8 * bpow radix2 1020 = bpow radix2 1023) by (replace 1023%Z with (3 + 1020)%Z by lia; rewrite bpow_plus; reflexivity).
  assert (B0 : 1 <= bpow radix2 1020) by (change 1 with (bpow radix2 0); apply bpow_le; lia).
  assert (HD : bpow radix2 (-1000) <= D).
  { replace (bpow radix2 (-1000)) with (bpow radix2 (-500) * bpow radix2 (-500)) by (rewrite <- bpow_plus; reflexivity). pose proof (bpow_ge_0 radix2 (-500)).
    assert (S : forall x, bpow radix2 (-500) <= Rabs x -> bpow radix2 (-500) * bpow radix2 (-500) <= x * x).
    { intros x Hx. replace (x * x) with (Rabs x * Rabs x) by (rewrite <- Rabs_mult; apply Rabs_pos_eq; apply sq0). apply Rmult_le_compat; assumption. }
    unfold D. unfold Rmax in Hl. destruct Rle_dec in Hl; apply S in Hl; lra. }
  destruct (fmul_ok c c Vc Vc Fc Fc) as (V1 & F1 & H1). { rewrite Rabs_pos_eq; lra. }
  destruct (fmul_ok d d Vd Vd Fd Fd) as (V2 & F2 & H2). { rewrite Rabs_pos_eq; lra. }
  rewrite (Rabs_pos_eq _ Pc) in H1. rewrite (Rabs_pos_eq _ Pd) in H2.
  assert (ES : eta64 <= 1).
  { eapply Rle_trans; [exact E1|]. assert (bpow radix2 (-1000) <= 1) by (change 1 with (bpow radix2 0); apply bpow_le; lia). pose proof (bpow_gt_0 radix2 (-1000)). nra. }
  assert (T1 : Rabs (fval (mul c c) + fval (mul d d)) <= bpow radix2 1023).
  { assert (uro * (fval c * fval c) <= 1 * bpow radix2 1020) by (apply Rmult_le_compat; lra). assert (uro * (fval d * fval d) <= 1 * bpow radix2 1020) by (apply Rmult_le_compat; lra).
    revert H1 H2. unfold Rabs. repeat destruct Rcase_abs; lra. }
  destruct (fadd_ok _ _ V1 V2 F1 F2 T1) as (V3 & F3 & H3). split; [exact HD|]. split; [split; assumption|].
  assert (K : Rabs (fval s - D) <= 2001 / 1000 * uro * D + 3 * eta64).
  { apply (dot2_err (fval (mul c c)) (fval (mul d d))); [rewrite !Rabs_pos_eq by assumption; unfold D; lra|rewrite (Rabs_pos_eq _ Pc); exact H1|rewrite (Rabs_pos_eq _ Pd); exact H2|exact H3]. }
  assert (uro * bpow radix2 (-1000) <= uro * D) by (apply Rmult_le_compat_l; lra). lra.
Qed.
Lemma cdiv_f64 z w : cgood z -> cgood w -> cbelow (bpow radix2 500) z -> cbelow (bpow radix2 510) w -> cabove (bpow radix2 (-500)) w ->
  exists q e, cdiv z w = Ret q /\ cgood q /\ cdiv (cval z) (cval w) = Ret e /\
    cmod (csub (cval q) e) <= 8 * uro * (cmod (cval z) / cmod (cval w)) + 5 * eta64 / (cmod (cval w) * cmod (cval w)) + 2 * eta64.
Proof.
  destruct z as [a b], w as [c d]. intros (Ga & Gb) (Gc & Gd) (Ba & Bb) (Bc & Bd) Hl. cbn [re im] in *.
  pose proof uro_pos as U. pose proof uro_tiny as U1. pose proof eta64_pos as E0. pose proof eta_small as E1.
  pose proof (sqsum_f64 c d Gc Gd Bc Bd Hl) as Q. cbv zeta in Q. set (D := fval c * fval c + fval d * fval d) in *. set (s := add (mul c c) (mul d d)) in *.
  destruct Q as (HD & Gs & Hs). pose proof (bpow_gt_0 radix2 (-1000)) as BP. assert (D0 : 0 < D) by lra.
  destruct (fneg_good d Gd) as (Gn & En).
  assert (B1 : bpow radix2 500 * bpow radix2 510 = bpow radix2 1010) by (rewrite <- bpow_plus; reflexivity).
  assert (B2 : 8192 * bpow radix2 1010 = bpow radix2 1023) by (replace 1023%Z with (13 + 1010)%Z by lia; rewrite bpow_plus; reflexivity).
  assert (B0 : 1 <= bpow radix2 1010) by (change 1 with (bpow radix2 0); apply bpow_le; lia).
  assert (ES : eta64 <= 1).
  { eapply Rle_trans; [exact E1|]. assert (bpow radix2 (-1000) <= 1) by (change 1 with (bpow radix2 0); apply bpow_le; lia). nra. }
  assert (PR : forall x y, fgood x -> fgood y -> Rabs (fval x) <= bpow radix2 500 -> Rabs (fval y) <= bpow radix2 510 -> fgood (mul x y) /\ Rabs (fval (mul x y)) <= 3 * bpow radix2 1010).
  { intros x y (Vx & Fx) (Vy & Fy) Hx Hy. pose proof (mul_bound _ _ _ _ Hx Hy) as M. rewrite B1 in M.
    destruct (fmul_ok x y Vx Vy Fx Fy) as (V & F & H); [lra|]. split; [split; assumption|].
    assert (uro * Rabs (fval x * fval y) <= 1 * bpow radix2 1010) by (apply Rmult_le_compat; try lra; apply Rabs_pos).
    replace (fval (mul x y)) with ((fval (mul x y) - fval x * fval y) + fval x * fval y) by ring. eapply Rle_trans; [apply Rabs_triang|]. lra. }
  assert (Bn : Rabs (fval (neg d)) <= bpow radix2 510) by (rewrite En, Rabs_Ropp; exact Bd).
  set (quot := cmul (mkC a b) (mkC c (neg d))).
  assert (Gq : cgood quot).
  { destruct (PR a c Ga Gc Ba Bc) as ((V1 & F1) & H1). destruct (PR b (neg d) Gb Gn Bb Bn) as ((V2 & F2) & H2).
    destruct (PR b c Gb Gc Bb Bc) as ((V3 & F3) & H3). destruct (PR a (neg d) Ga Gn Ba Bn) as ((V4 & F4) & H4).
    split; unfold quot; cbn [cmul re im].
    - destruct (fsub_ok _ _ V1 V2 F1 F2) as (V & F & _); [|split; assumption]. eapply Rle_trans; [apply Rabs_triang|]. rewrite Rabs_Ropp. lra.
    - destruct (fadd_ok _ _ V3 V4 F3 F4) as (V & F & _); [|split; assumption]. eapply Rle_trans; [apply Rabs_triang|]. lra. }
  set (w' := mkC c (neg d)) in *. set (P := cmod (cval (mkC a b)) * cmod (cval (mkC c d))).
  assert (EW : cmod (cval w') = cmod (cval (mkC c d))) by (unfold cmod, cval, w'; cbn [re im]; rewrite En; f_equal; ring).
  pose proof (cmul_comp (mkC a b) w' (conj Ga Gb) (conj Gc Gn) Gq) as C. cbv zeta in C. rewrite EW in C. fold P in C. destruct C as (C1 & C2).
  set (N := cmul (cval (mkC a b)) (cval w')) in *.
  assert (N1 : Rabs (re N) <= P /\ Rabs (im N) <= P).
  { unfold P. rewrite <- EW. unfold N, w', cval. cbn [re im cmul]. change (@mul R R_ops) with Rmult. change (@sub R R_ops) with Rminus. change (@add R R_ops) with Rplus. split.
    - eapply Rle_trans; [apply Rabs_triang|]. rewrite Rabs_Ropp. apply cauchy.
    - eapply Rle_trans; [apply Rabs_triang|]. rewrite <- (cmod_swap (fval a)). apply cauchy. }
  destruct N1 as (N1 & N2). fold quot in C1, C2.
  destruct (quot_real (re N) (fval (re quot)) D (fval s) P D0 N1 C1 Hs) as (S0 & R1). destruct (quot_real (im N) (fval (im quot)) D (fval s) P D0 N2 C2 Hs) as (_ & R2).
  assert (WW : cmod (cval (mkC c d)) * cmod (cval (mkC c d)) = D) by (rewrite cmod_sq; reflexivity).
  assert (W0 : 0 < cmod (cval (mkC c d))). { destruct (cmod_pos (cval (mkC c d))) as [H|H]; [exact H|]. rewrite <- H in WW. lra. }
  assert (PD : P / D = cmod (cval (mkC a b)) / cmod (cval (mkC c d))) by (unfold P; rewrite <- WW; field; lra).
  set (rho := cmod (cval (mkC a b)) / cmod (cval (mkC c d))) in *. rewrite PD in R1, R2.
  assert (R0 : 0 <= rho) by (apply Rmult_le_pos; [apply cmod_pos|left; now apply Rinv_0_lt_compat]).
  assert (ID : 0 < / D <= bpow radix2 1000).
  { split; [now apply Rinv_0_lt_compat|]. change 1000%Z with (- - (1000))%Z at 1. rewrite bpow_opp. apply Rinv_le_contravar; [exact BP|exact HD]. }
  assert (RB : rho <= bpow radix2 1020).
  { rewrite <- PD. unfold Rdiv. apply Rle_trans with (bpow radix2 1020 * D * / D); [|right; field; lra]. apply Rmult_le_compat_r; [lra|].
    unfold P. rewrite <- WW. rewrite <- Rmult_assoc. apply Rmult_le_compat_r; [lra|].
    apply Rle_trans with (1415 / 1000 * bpow radix2 500); [now apply cmod_comp|]. apply Rle_trans with (bpow radix2 1020 * bpow radix2 (-500)).
    - rewrite <- bpow_plus. change (1020 + -500)%Z with (20 + 500)%Z. rewrite bpow_plus. pose proof (bpow_gt_0 radix2 500). apply Rmult_le_compat_r; [lra|]. simpl. lra.
    - apply Rmult_le_compat_l; [apply bpow_ge_0|]. eapply Rle_trans; [exact Hl|]. apply Rmax_lub; [apply (re_le (cval (mkC c d)))|apply (im_le (cval (mkC c d)))]. }
  assert (B5 : 8 * bpow radix2 1020 = bpow radix2 1023) by (replace 1023%Z with (3 + 1020)%Z by lia; rewrite bpow_plus; reflexivity).
  assert (B6 : 1 <= bpow radix2 1020) by (change 1 with (bpow radix2 0); apply bpow_le; lia).
  assert (EI : eta64 / D <= 1).
  { unfold Rdiv. apply Rle_trans with (uro * bpow radix2 (-1000) / 1000000 * bpow radix2 1000); [apply Rmult_le_compat; lra|].
    replace (uro * bpow radix2 (-1000) / 1000000 * bpow radix2 1000) with (uro / 1000000 * (bpow radix2 (-1000) * bpow radix2 1000)) by field.
    rewrite <- bpow_plus. change (bpow radix2 (-1000 + 1000)) with 1. lra. }
  assert (EI0 : 0 < eta64 / D) by (apply Rmult_lt_0_compat; lra).
  assert (comp : forall n M, fgood n -> Rabs M <= P -> Rabs (fval n / fval s - M / D) <= 402 / 100 * uro * rho + 31 / 10 * eta64 / D ->
    fgood (div n s) /\ Rabs (fval (div n s) - M / D) <= 503 / 100 * uro * rho + 32 / 10 * (eta64 / D) + eta64).
  { intros n M (Vn & Fn) HM H. destruct Gs as (Vs & Fs). assert (UR : 0 <= uro * rho) by (apply Rmult_le_pos; lra).
    assert (UR1 : uro * rho <= / 1000000 * rho) by (apply Rmult_le_compat_r; lra).
    assert (MD : Rabs (M / D) <= rho). { rewrite <- PD. unfold Rdiv. rewrite Rabs_mult, (Rabs_inv D), (Rabs_pos_eq D) by lra. apply Rmult_le_compat_r; [lra|exact HM]. }
    replace (31 / 10 * eta64 / D) with (31 / 10 * (eta64 / D)) in H by (field; lra).
    assert (T : Rabs (fval n / fval s) <= rho + 402 / 100 * uro * rho + 31 / 10 * (eta64 / D)).
    { replace (fval n / fval s) with ((fval n / fval s - M / D) + M / D) by ring. eapply Rle_trans; [apply Rabs_triang|]. lra. }
    destruct (fdiv_ok n s Vn Vs Fn Fs) as (V & F & E); [lra|lra|]. split; [split; assumption|].
    assert (UT : uro * Rabs (fval n / fval s) <= uro * (rho + 402 / 100 * uro * rho + 31 / 10 * (eta64 / D))) by (apply Rmult_le_compat_l; lra).
    assert (UU : uro * (uro * rho) <= / 1000000 * (uro * rho)) by (apply Rmult_le_compat_r; lra).
    assert (UE : uro * (eta64 / D) <= / 1000000 * (eta64 / D)) by (apply Rmult_le_compat_r; lra).
    replace (fval (div n s) - M / D) with ((fval (div n s) - fval n / fval s) + (fval n / fval s - M / D)) by ring. eapply Rle_trans; [apply Rabs_triang|]. lra. }
  destruct Gq as (Gq1 & Gq2). destruct (comp _ _ Gq1 N1 R1) as (G1 & K1). destruct (comp _ _ Gq2 N2 R2) as (G2 & K2).
  exists (mkC (div (re quot) s) (div (im quot) s)), (mkC (re N / D) (im N / D)). split; [|split; [split; assumption|split]].
  - unfold cdiv. cbn [re im]. fold s w'. fold quot. destruct Gs as (Vs & Fs).
    replace (eqb s zero) with false; [reflexivity|]. symmetry. apply (feqb_zero s Vs Fs). lra.
  - unfold cval, cdiv. cbn [re im]. change (add (mul (fval c) (fval c)) (mul (fval d) (fval d))) with D.
    replace (eqb D zero) with false by (symmetry; change (eqb D zero) with (R_eqb D 0); unfold R_eqb; destruct Req_EM_T; [lra|reflexivity]).
    assert (EN : cmul (mkC (fval a) (fval b)) (mkC (fval c) (neg (fval d))) = N) by (unfold N, cval, w'; cbn [re im]; rewrite En; reflexivity).
    cbv iota zeta. rewrite EN. reflexivity.
  - eapply Rle_trans; [apply (cmod_comp _ (503 / 100 * uro * rho + 32 / 10 * (eta64 / D) + eta64)); [exact K1|exact K2]|].
    rewrite WW. assert (0 <= uro * rho) by (apply Rmult_le_pos; lra). unfold Rdiv in *. lra.
Qed.

(** ** Modulus *)
Lemma cabs_f64 pw (E : EOps f64) k z : sqrt_good k (fun x => pw x (@half f64 (F64_pops pw))) -> gam (k + 16) <= / 100 ->
  (forall x, fvalid x -> ffin (pw x (@half f64 (F64_pops pw))) = true -> 0 <= fval (pw x (@half f64 (F64_pops pw)))) ->
  cgood z -> cbelow (bpow radix2 510) z -> cabove (bpow radix2 (-500)) z ->
  let r := @cabs f64 F64_ops (F64_pops pw) z in cgood r /\ fval (im r) = 0 /\ 0 < fval (re r) /\
  Rabs (fval (re r) - cmod (cval z)) <= (gam k + 4 * uro) * fval (re r).
Proof.
  destruct z as [a b]. intros SQ Hk Hpos (Ga & Gb) (Ba & Bb) Hl r. cbn [re im] in *.
  assert (Er : r = mkC (pw (add (mul a a) (mul b b)) (@half f64 (F64_pops pw))) zero) by reflexivity.
  pose proof (hyp_acc pw k SQ Hk a b Ga Gb Hl Ba Bb) as H. cbv zeta in H.
  pose proof (sqsum_f64 a b Ga Gb Ba Bb Hl) as S. cbv zeta in S. destruct S as (_ & (Vs & Fs) & _).
  rewrite Er. cbn [re im]. set (p := pw _ _) in *. destruct H as (Gp & D0 & P0 & HR & _).
  assert (p0 : 0 <= fval p) by (apply Hpos; [exact Vs|exact (proj2 Gp)]).
  assert (p1 : 0 < fval p) by (destruct p0 as [p0|p0]; [exact p0|rewrite <- p0 in P0; lra]).
  split; [split; [exact Gp|split; reflexivity]|]. split; [reflexivity|]. split; [exact p1|].
  set (m := cmod (cval (mkC a b))). assert (MM : m * m = fval a * fval a + fval b * fval b) by apply cmod_sq.
  rewrite <- MM in *. pose proof (cmod_pos (cval (mkC a b))) as m0. fold m in m0. set (g := gam k + 4 * uro) in *.
  assert (X : Rabs ((fval p - m) * (fval p + m)) <= g * (fval p * fval p)).
  { replace ((fval p - m) * (fval p + m)) with (- ((m * m / (fval p * fval p) - 1) * (fval p * fval p))) by (field; lra).
    rewrite Rabs_Ropp, Rabs_mult, (Rabs_pos_eq (fval p * fval p)) by lra. apply Rmult_le_compat_r; [lra|exact HR]. }
  rewrite Rabs_mult, (Rabs_pos_eq (fval p + m)) in X by lra.
  apply Rmult_le_reg_r with (fval p + m); [lra|]. eapply Rle_trans; [exact X|].
  assert (g0 : 0 <= g) by (unfold g; pose proof (gam_pos k); pose proof uro_pos; lra).
  assert (0 <= g * fval p * m) by (apply Rmult_le_pos; [apply Rmult_le_pos; lra|lra]). lra.
Qed.

(** ** Exponential *)
Lemma exp_pow_n x n : exp (INR n * x) = exp x ^ n.
Proof.
  induction n as [|n IH]; [rewrite Rmult_0_l; exact exp_0|]. rewrite S_INR, Rmult_plus_distr_r, Rmult_1_l, exp_plus, IH. simpl. ring.
Qed.
Lemma exp_1_le : exp 1 <= 274 / 100.
Proof.
  assert (H : exp (/ 64) <= 64 / 63).
  { pose proof (exp_ineq1_le (- / 64)) as Q. rewrite exp_Ropp in Q. pose proof (exp_pos (/ 64)) as P.
    replace (exp (/ 64)) with (/ / exp (/ 64)) by (apply Rinv_inv). replace (64 / 63) with (/ (1 + - / 64)) by field. apply Rinv_le_contravar; lra. }
  replace 1 with (INR 64 * / 64) by (rewrite INR_IZR_INZ; simpl; field). rewrite exp_pow_n.
  apply Rle_trans with ((64 / 63) ^ 64); [apply pow_incr; split; [left; apply exp_pos|exact H]|]. lra.
Qed.
Lemma exp_700 : exp 700 <= bpow radix2 1020.
Proof.
  replace 700 with (INR 700 * 1) by (rewrite INR_IZR_INZ; simpl; ring). rewrite exp_pow_n. change 700%nat with (35 * 20)%nat. rewrite pow_mult.
  assert (H : exp 1 ^ 35 <= bpow radix2 51).
  { apply Rle_trans with ((274 / 100) ^ 35); [apply pow_incr; split; [left; apply exp_pos|exact exp_1_le]|]. simpl bpow. lra. }
  apply Rle_trans with (bpow radix2 51 ^ 20); [apply pow_incr; split; [apply pow_le; left; apply exp_pos|exact H]|].
  right. replace 1020%Z with (51 * Z.of_nat 20)%Z by reflexivity. generalize 20%nat. intro n. induction n as [|n IH]; [reflexivity|].
  change (bpow radix2 51 ^ S n) with (bpow radix2 51 * bpow radix2 51 ^ n). rewrite IH, <- bpow_plus. f_equal. lia.
Qed.
Lemma prod_acc k c X C a b : 0 <= a <= 1000000 -> 0 <= b <= 1000000 -> 0 < X -> Rabs (k - X) <= a * uro * X -> Rabs C <= 1 -> Rabs (c - C) <= b * uro ->
  Rabs (k * c) <= 1001 / 1000 * X /\ forall p, Rabs (p - k * c) <= uro * Rabs (k * c) + eta64 -> Rabs (p - X * C) <= 1001 / 1000 * (a + b + 1) * (uro * X) + eta64.
Proof.
  intros Ha Hb HX Hk HC Hc. pose proof uro_pos as U. pose proof uro_tiny as U1.
  assert (AU : 0 <= a * uro <= / 1000000) by (split; [apply Rmult_le_pos; lra|apply Rle_trans with (1000000 * / 1000000000000000); [apply Rmult_le_compat; lra|lra]]).
  assert (BU : 0 <= b * uro <= / 1000000) by (split; [apply Rmult_le_pos; lra|apply Rle_trans with (1000000 * / 1000000000000000); [apply Rmult_le_compat; lra|lra]]).
  assert (AX : a * uro * X <= / 1000000 * X) by (apply Rmult_le_compat_r; lra).
  assert (K1 : Rabs k <= 1000001 / 1000000 * X).
  { replace k with ((k - X) + X) by ring. eapply Rle_trans; [apply Rabs_triang|]. rewrite (Rabs_pos_eq X) by lra. lra. }
  assert (D1 : Rabs (k * c - X * C) <= 1000001 / 1000000 * X * (b * uro) + a * uro * X).
  { replace (k * c - X * C) with (k * (c - C) + (k - X) * C) by ring. eapply Rle_trans; [apply Rabs_triang|]. apply Rplus_le_compat; [apply mul_bound; assumption|].
    pose proof (mul_bound _ _ _ _ Hk HC). lra. }
  assert (XC : Rabs (X * C) <= X) by (rewrite Rabs_mult, (Rabs_pos_eq X) by lra; rewrite <- (Rmult_1_r X) at 2; apply Rmult_le_compat_l; lra).
  assert (XB : X * (b * uro) <= X * / 1000000) by (apply Rmult_le_compat_l; lra).
  assert (XB0 : 0 <= X * (b * uro)) by (apply Rmult_le_pos; lra).
  assert (M : Rabs (k * c) <= 1001 / 1000 * X).
  { replace (k * c) with ((k * c - X * C) + X * C) by ring. eapply Rle_trans; [apply Rabs_triang|]. lra. }
  split; [exact M|]. intros p Hp. assert (UM : uro * Rabs (k * c) <= uro * (1001 / 1000 * X)) by (apply Rmult_le_compat_l; lra).
  replace (p - X * C) with ((p - k * c) + (k * c - X * C)) by ring. eapply Rle_trans; [apply Rabs_triang|].
  assert (0 <= a * (uro * X)) by (apply Rmult_le_pos; [lra|apply Rmult_le_pos; lra]). lra.
Qed.
Lemma cexp_f64 (E : EOps f64) a b z : 0 <= a <= 1000000 -> 0 <= b <= 1000000 -> exp_acc a texp -> trig_acc b tcos cos -> trig_acc b tsin sin ->
  cgood z -> Rabs (fval (re z)) <= 700 ->
  cgood (cexp z) /\ cmod (csub (cval (cexp z)) (cexp (cval z))) <= 2 * (a + b + 1) * uro * exp (fval (re z)) + 2 * eta64.
Proof.
  destruct z as [x y]. intros Ha Hb HE HC HS (Gx & Gy) Hx. cbn [re im] in *. pose proof uro_pos as U. pose proof eta64_pos as E0.
  destruct (HE x Gx Hx) as (Gk & Hk). set (X := exp (fval x)) in *. assert (X0 : 0 < X) by apply exp_pos.
  assert (XB : X <= bpow radix2 1020).
  { unfold X. apply Rle_trans with (exp 700); [|exact exp_700]. destruct (Req_dec (fval x) 700) as [->|N]; [lra|]. left. apply exp_increasing. revert Hx. unfold Rabs. destruct Rcase_abs; lra. }
  assert (B5 : 8 * bpow radix2 1020 = bpow radix2 1023) by (replace 1023%Z with (3 + 1020)%Z by lia; rewrite bpow_plus; reflexivity).
  assert (comp : forall f F, trig_acc b f F -> (forall t, Rabs (F t) <= 1) -> fgood (mul (texp x) (f y)) /\
    Rabs (fval (mul (texp x) (f y)) - X * F (fval y)) <= 1001 / 1000 * (a + b + 1) * (uro * X) + eta64).
  { intros f F HF H1. destruct (HF y Gy) as (Gf & Hf). destruct (prod_acc _ _ _ _ a b Ha Hb X0 Hk (H1 (fval y)) Hf) as (M & K).
    destruct Gk as (Vk & Fk). destruct Gf as (Vf & Ff). destruct (fmul_ok _ _ Vk Vf Fk Ff) as (V & F' & H'); [lra|]. split; [split; assumption|]. apply K. exact H'. }
  destruct (comp _ _ HC) as (G1 & K1). { intro t. apply Rabs_le. apply COS_bound. }
  destruct (comp _ _ HS) as (G2 & K2). { intro t. apply Rabs_le. apply SIN_bound. }
  split; [split; assumption|].
  eapply Rle_trans; [apply (cmod_comp _ (1001 / 1000 * (a + b + 1) * (uro * X) + eta64)); [exact K1|exact K2]|].
  assert (0 <= (a + b + 1) * (uro * X)) by (apply Rmult_le_pos; [lra|apply Rmult_le_pos; lra]). lra.
Qed.
