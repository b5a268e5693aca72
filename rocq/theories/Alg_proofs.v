(** Proofs about the algebraic traits. *)
From Coq Require Import List ZArith Reals Lra Lia Bool SpecFloat.
From Flocq Require Import Core IEEE754.BinarySingleNaN.
From Verif Require Import Outcome Scalar Int_model Int_spec Poly_model Poly_spec Complex_model Alg_model.
From Verif Require Import Int_proofs F64_spec F64Flocq F64Err_proofs F64Grid_proofs F64Term_proofs Poly_proofs.
Import ListNotations.
Local Open Scope Z_scope.

(** ** Integers with overflow checks *)
Lemma ichk_cases t z : (in_ity t z /\ ichk t z = Ret z) \/ (~ in_ity t z /\ ichk t z = Panic).
Proof.
  destruct (Z_le_dec (imin t) z); [destruct (Z_le_dec z (imax t))|].
  - left. assert (in_ity t z) by (rewrite in_ity_iff; lia). split; [assumption|now apply ichk_ok].
  - right. assert (~ in_ity t z) by (rewrite in_ity_iff; lia). split; [assumption|now apply ichk_bad].
  - right. assert (~ in_ity t z) by (rewrite in_ity_iff; lia). split; [assumption|now apply ichk_bad].
Qed.
Lemma iassoc_add t a b c :
  (in_ity t (a + b) /\ in_ity t (b + c) /\ in_ity t (a + b + c) -> is_associative (ioperate_add t) Z.eqb a b c = Ret true) /\
  (~ (in_ity t (a + b) /\ in_ity t (b + c) /\ in_ity t (a + b + c)) -> is_associative (ioperate_add t) Z.eqb a b c = Panic).
Proof.
  unfold is_associative, ioperate_add.
  destruct (ichk_cases t (a + b)) as [[H1 E1]|[H1 E1]]; rewrite E1; cbn [bind]; [|split; [tauto|reflexivity]].
  destruct (ichk_cases t (a + b + c)) as [[H2 E2]|[H2 E2]]; rewrite E2; cbn [bind]; [|split; [tauto|reflexivity]].
  destruct (ichk_cases t (b + c)) as [[H3 E3]|[H3 E3]]; rewrite E3; cbn [bind]; [|split; [tauto|reflexivity]].
  replace (a + (b + c)) with (a + b + c) by ring. rewrite E2. cbn [bind]. rewrite Z.eqb_refl. split; [reflexivity|tauto].
Qed.
Lemma iassoc_mul t a b c :
  (in_ity t (a * b) /\ in_ity t (b * c) /\ in_ity t (a * b * c) -> is_associative (ioperate_mul t) Z.eqb a b c = Ret true) /\
  (~ (in_ity t (a * b) /\ in_ity t (b * c) /\ in_ity t (a * b * c)) -> is_associative (ioperate_mul t) Z.eqb a b c = Panic).
Proof.
  unfold is_associative, ioperate_mul.
  destruct (ichk_cases t (a * b)) as [[H1 E1]|[H1 E1]]; rewrite E1; cbn [bind]; [|split; [tauto|reflexivity]].
  destruct (ichk_cases t (a * b * c)) as [[H2 E2]|[H2 E2]]; rewrite E2; cbn [bind]; [|split; [tauto|reflexivity]].
  destruct (ichk_cases t (b * c)) as [[H3 E3]|[H3 E3]]; rewrite E3; cbn [bind]; [|split; [tauto|reflexivity]].
  replace (a * (b * c)) with (a * b * c) by ring. rewrite E2. cbn [bind]. rewrite Z.eqb_refl. split; [reflexivity|tauto].
Qed.
Lemma in_ity_0 t : 0 < iwidth t -> in_ity t 0.
Proof. intros H. rewrite in_ity_iff. unfold imin, imax. assert (0 < 2 ^ (iwidth t - 1)) by (apply Z.pow_pos_nonneg; lia). assert (0 < 2 ^ iwidth t) by (apply Z.pow_pos_nonneg; lia). destruct (isigned t); lia. Qed.
Lemma ineg_ok t a : isigned t = true -> in_ity t a ->
  (a <> imin t -> exists b, ineg t a = Ret b /\ in_ity t b /\ ioperate_add t a b = Ret iid_add) /\ (a = imin t -> 0 < iwidth t -> ineg t a = Panic /\ forall b, in_ity t b -> ioperate_add t a b <> Ret iid_add).
Proof.
  intros Hs Ha. rewrite in_ity_iff in Ha. unfold ineg, ioperate_add, iid_add. split.
  - intros Hn. exists (- a). assert (I : in_ity t (- a)) by (rewrite in_ity_iff; unfold imin, imax in *; rewrite Hs in *; lia).
    split; [now apply ichk_ok|]. split; [exact I|]. replace (a + - a) with 0 by ring. apply ichk_ok. rewrite in_ity_iff in *. unfold imin, imax in *. rewrite Hs in *. lia.
  - intros -> Hw. assert (0 < 2 ^ (iwidth t - 1)) by (apply Z.pow_pos_nonneg; lia). split.
    + apply ichk_bad. rewrite in_ity_iff. unfold imin, imax. rewrite Hs. lia.
    + intros b Hb E. apply ichk_inv in E. destruct E as [E _]. rewrite in_ity_iff in Hb. unfold imin, imax in *. rewrite Hs in *. lia.
Qed.

(** ** Integers without overflow checks *)
Lemma as_int_cong t u v : u mod 2 ^ iwidth t = v mod 2 ^ iwidth t -> as_int t u = as_int t v.
Proof. intros H. unfold as_int. now rewrite H. Qed.
Lemma as_int_id t z : 0 < iwidth t -> in_ity t z -> as_int t z = z.
Proof. intros Hw H. now apply (proj2 (proj2 (proj2 (as_int_ok t z Hw)))). Qed.
Section Wrap.
Variable t : ity.
Hypothesis Hw : 0 < iwidth t.
Let M := 2 ^ iwidth t.
Let Mpos : 0 < M. Proof. apply Z.pow_pos_nonneg; lia. Qed.
Lemma as_int_mod z : as_int t z mod M = z mod M. Proof. exact (proj1 (proj2 (as_int_ok t z Hw))). Qed.
Lemma wadd_l u v : as_int t (as_int t u + v) = as_int t (u + v).
Proof. apply as_int_cong. fold M. rewrite Zplus_mod, as_int_mod, <- Zplus_mod. reflexivity. Qed.
Lemma wadd_r u v : as_int t (u + as_int t v) = as_int t (u + v).
Proof. rewrite Z.add_comm, wadd_l. f_equal. ring. Qed.
Lemma wmul_l u v : as_int t (as_int t u * v) = as_int t (u * v).
Proof. apply as_int_cong. fold M. rewrite Zmult_mod, as_int_mod, <- Zmult_mod. reflexivity. Qed.
Lemma wmul_r u v : as_int t (u * as_int t v) = as_int t (u * v).
Proof. rewrite Z.mul_comm, wmul_l. f_equal. ring. Qed.
Lemma wrap_ring a b c : in_ity t a ->
  in_ity t (woperate_add t a b) /\ in_ity t (woperate_mul t a b) /\
  woperate_add t (woperate_add t a b) c = woperate_add t a (woperate_add t b c) /\
  woperate_mul t (woperate_mul t a b) c = woperate_mul t a (woperate_mul t b c) /\
  woperate_add t a b = woperate_add t b a /\ woperate_mul t a b = woperate_mul t b a /\
  woperate_mul t a (woperate_add t b c) = woperate_add t (woperate_mul t a b) (woperate_mul t a c) /\
  woperate_add t a iid_add = a /\ woperate_mul t a iid_mul = a /\ woperate_add t a (wneg t a) = iid_add.
Proof.
  intros Ha. unfold woperate_add, woperate_mul, wneg, iid_add, iid_mul.
  split; [exact (proj1 (as_int_ok t _ Hw))|]. split; [exact (proj1 (as_int_ok t _ Hw))|].
  rewrite ?wadd_l, ?wadd_r, ?wmul_l, ?wmul_r, ?wadd_l, ?wadd_r.
  repeat split; try (f_equal; ring).
  - rewrite Z.add_0_r. now apply as_int_id.
  - rewrite Z.mul_1_r. now apply as_int_id.
  - replace (a + - a) with 0 by ring. apply as_int_id; [assumption|now apply in_ity_0].
Qed.
End Wrap.

(** ** binary64 *)
Lemma fadd_comm (x y : f64) : add x y = add y x.
Proof.
  change (SFadd 53 1024 x y = SFadd 53 1024 y x).
  destruct x as [s|s| |s m e], y as [s'|s'| |s' m' e']; try reflexivity; try (destruct s, s'; reflexivity).
  cbn [SFadd]. rewrite (Z.min_comm e' e). rewrite Z.add_comm. reflexivity.
Qed.
Lemma fmul_comm (x y : f64) : mul x y = mul y x.
Proof.
  change (SFmul 53 1024 x y = SFmul 53 1024 y x).
  destruct x as [s|s| |s m e], y as [s'|s'| |s' m' e']; cbn [SFmul]; try reflexivity; try (now rewrite xorb_comm).
  rewrite xorb_comm, Pos.mul_comm, Z.add_comm. reflexivity.
Qed.
Lemma fneg_valid x : fvalid x -> fvalid (neg x).
Proof. destruct x as [s|s| |s m e]; intros H; exact H. Qed.
Lemma fadd_zero_r (x : f64) : x <> S754_nan -> eqb (add x zero) x = true.
Proof.
  intros H. destruct x as [s|s| |s m e]; try congruence.
  - destruct s; reflexivity.
  - destruct s; reflexivity.
  - change (eqb (S754_finite s m e : f64) (S754_finite s m e) = true). now apply feqb_refl.
Qed.
Lemma fadd_neg (x : f64) : ffin x = true -> add x (neg x) = zero.
Proof.
  intros F. change (SFadd 53 1024 x (SFopp x) = S754_zero false). destruct x as [s|s| |s m e]; try discriminate; [destruct s; reflexivity|].
  cbn [SFopp SFadd]. rewrite Z.min_id.
  replace (cond_Zopp s (Z.pos (fst (shl_align m e e))) + cond_Zopp (negb s) (Z.pos (fst (shl_align m e e)))) with 0; [reflexivity|].
  destruct s; cbn [cond_Zopp negb]; lia.
Qed.
Local Open Scope R_scope.
Lemma fin_lt_emax x : fvalid x -> Rabs (fval x) < bpow radix2 1024.
Proof. intros H. rewrite <- (B2SF_toB x H), fval_B. apply abs_B2R_lt_emax. Qed.
Lemma no_ov_val x : fvalid x -> no_overflow (fval x).
Proof. intros H. unfold no_overflow. rewrite (rnd_fval x H). now apply fin_lt_emax. Qed.
Lemma fval_inj x y : fvalid x -> fvalid y -> ffin x = true -> ffin y = true -> fval x <> 0 -> fval x = fval y -> x = y.
Proof.
  intros Hx Hy Fx Fy N E. rewrite <- (B2SF_toB x Hx), <- (B2SF_toB y Hy) in *. rewrite !fval_B, !ffin_B in *. f_equal.
  assert (S : forall b : b64, is_finite b = true -> B2R b <> 0 -> is_finite_strict b = true).
  { intros b Hb Nb. destruct b; try discriminate; try reflexivity. exfalso. apply Nb. reflexivity. }
  apply B2R_inj; [now apply S| |exact E]. apply S; [exact Fy|]. now rewrite <- E.
Qed.
Lemma feqb_val x y : fvalid x -> fvalid y -> ffin x = true -> ffin y = true -> fval x = fval y -> eqb x y = true.
Proof.
  intros Hx Hy Fx Fy E. destruct (Req_dec (fval x) 0) as [Z0|N].
  - assert (K : forall a : f64, ffin a = true -> fval a = 0 -> exists s, a = S754_zero s).
    { intros a Fa Va. destruct a as [s|s| |s m e]; try discriminate; [now exists s|]. exfalso. revert Va. unfold fval, SF2R. destruct s; cbn [cond_Zopp].
      - apply Rlt_not_eq. apply F2R_lt_0. reflexivity.
      - apply Rgt_not_eq. apply F2R_gt_0. reflexivity. }
    destruct (K x Fx Z0) as [s ->]. destruct (K y Fy ltac:(congruence)) as [s' ->]. reflexivity.
  - rewrite (fval_inj x y) by assumption. apply feqb_refl. intros ->. discriminate.
Qed.
Lemma fmul_one (x : f64) : fvalid x -> mul x one = x.
Proof.
  intros H. destruct x as [s|s| |s m e]; try reflexivity; try (destruct s; reflexivity).
  set (x := S754_finite s m e) in *. destruct (fmul_round x (@one f64 F64_ops) H eq_refl eq_refl eq_refl) as [V F].
  { rewrite fval_one, Rmult_1_r. now apply no_ov_val. }
  rewrite fval_one, Rmult_1_r, (rnd_fval x H) in V. assert (N : fval x <> 0).
  { unfold x, fval, SF2R. destruct s; cbn [cond_Zopp]; [apply Rlt_not_eq, F2R_lt_0; reflexivity|apply Rgt_not_eq, F2R_gt_0; reflexivity]. }
  apply fval_inj; try assumption; [apply fvalid_mul; [exact H|reflexivity]|reflexivity|rewrite V; exact N].
Qed.
Lemma fdiv_self (x : f64) : fvalid x -> ffin x = true -> fval x <> 0 -> div x x = one.
Proof.
  intros H F N. assert (V1 : fvalid (@one f64 F64_ops)) by reflexivity.
  assert (Q : fval x / fval x = fval (@one f64 F64_ops)) by (rewrite fval_one; field; exact N).
  destruct (fdiv_round x x H H F F N) as [V G]; [rewrite Q; now apply no_ov_val|]. rewrite Q, (rnd_fval _ V1) in V.
  apply fval_inj; try assumption; [now apply fvalid_div|rewrite V, fval_one; lra].
Qed.
Lemma fadd_exact x y s : fvalid x -> fvalid y -> fvalid s -> ffin x = true -> ffin y = true -> fval s = fval x + fval y ->
  fval (add x y) = fval x + fval y /\ ffin (add x y) = true /\ fvalid (add x y).
Proof.
  intros Hx Hy Hs Fx Fy E. destruct (fadd_round x y Hx Hy Fx Fy) as [V F]; [rewrite <- E; now apply no_ov_val|].
  split; [rewrite V, <- E; now apply rnd_fval|]. split; [exact F|now apply fvalid_add].
Qed.
Lemma fmul_exact x y s : fvalid x -> fvalid y -> fvalid s -> ffin x = true -> ffin y = true -> fval s = fval x * fval y ->
  fval (mul x y) = fval x * fval y /\ ffin (mul x y) = true /\ fvalid (mul x y).
Proof.
  intros Hx Hy Hs Fx Fy E. destruct (fmul_round x y Hx Hy Fx Fy) as [V F]; [rewrite <- E; now apply no_ov_val|].
  split; [rewrite V, <- E; now apply rnd_fval|]. split; [exact F|now apply fvalid_mul].
Qed.
Lemma fassoc_add_exact x y z s1 s2 s3 : fvalid x -> fvalid y -> fvalid z -> ffin x = true -> ffin y = true -> ffin z = true ->
  fvalid s1 -> fvalid s2 -> fvalid s3 -> fval s1 = fval x + fval y -> fval s2 = fval y + fval z -> fval s3 = fval x + fval y + fval z ->
  is_associative foperate_add eqb x y z = Ret true.
Proof.
  intros Hx Hy Hz Fx Fy Fz H1 H2 H3 E1 E2 E3. unfold is_associative, foperate_add. cbn [bind]. f_equal.
  destruct (fadd_exact x y s1) as (A1 & A2 & A3); try assumption. destruct (fadd_exact y z s2) as (B1 & B2 & B3); try assumption.
  destruct (fadd_exact (add x y) z s3) as (C1 & C2 & C3); try assumption; [rewrite A1; exact E3|].
  destruct (fadd_exact x (add y z) s3) as (D1 & D2 & D3); try assumption; [rewrite B1; lra|].
  apply feqb_val; try assumption. rewrite C1, D1, A1, B1. ring.
Qed.
Lemma fassoc_mul_exact x y z s1 s2 s3 : fvalid x -> fvalid y -> fvalid z -> ffin x = true -> ffin y = true -> ffin z = true ->
  fvalid s1 -> fvalid s2 -> fvalid s3 -> fval s1 = fval x * fval y -> fval s2 = fval y * fval z -> fval s3 = fval x * fval y * fval z ->
  is_associative foperate_mul eqb x y z = Ret true.
Proof.
  intros Hx Hy Hz Fx Fy Fz H1 H2 H3 E1 E2 E3. unfold is_associative, foperate_mul. cbn [bind]. f_equal.
  destruct (fmul_exact x y s1) as (A1 & A2 & A3); try assumption. destruct (fmul_exact y z s2) as (B1 & B2 & B3); try assumption.
  destruct (fmul_exact (mul x y) z s3) as (C1 & C2 & C3); try assumption; [rewrite A1; exact E3|].
  destruct (fmul_exact x (mul y z) s3) as (D1 & D2 & D3); try assumption; [rewrite B1, <- Rmult_assoc; exact E3|].
  apply feqb_val; try assumption. rewrite C1, D1, A1, B1. ring.
Qed.
Lemma fassoc_add_err x y z : fvalid x -> fvalid y -> fvalid z -> ffin (add (add x y) z) = true -> ffin (add x (add y z)) = true ->
  Rabs (fval (add (add x y) z) - fval (add x (add y z))) <= 2 * gam 2 * (Rabs (fval x) + Rabs (fval y) + Rabs (fval z)).
Proof.
  intros Hx Hy Hz F1 F2.
  destruct (fadd_err (add x y) z) as (G1 & _ & E1 & _); try assumption; [now apply fvalid_add|].
  destruct (fadd_err x (add y z)) as (_ & G2 & E2 & _); try assumption; [now apply fvalid_add|].
  destruct (fadd_err x y) as (_ & _ & E3 & _); try assumption. destruct (fadd_err y z) as (_ & _ & E4 & _); try assumption.
  set (l := fval (add (add x y) z)) in *. set (r := fval (add x (add y z))) in *. set (p := fval (add x y)) in *. set (q := fval (add y z)) in *.
  set (a := fval x) in *. set (b := fval y) in *. set (c := fval z) in *. unfold gam. pose proof uro_pos as U. set (u := uro) in *.
  assert (T1 : Rabs (a + b) <= Rabs a + Rabs b) by apply Rabs_triang. assert (T2 : Rabs (b + c) <= Rabs b + Rabs c) by apply Rabs_triang.
  assert (P1 : u * Rabs (a + b) <= u * (Rabs a + Rabs b)) by (apply Rmult_le_compat_l; lra).
  assert (P2 : u * Rabs (b + c) <= u * (Rabs b + Rabs c)) by (apply Rmult_le_compat_l; lra).
  assert (T3 : Rabs (p + c) <= Rabs (p - (a + b)) + (Rabs a + Rabs b) + Rabs c).
  { replace (p + c) with ((p - (a + b)) + (a + b) + c) by ring. eapply Rle_trans; [apply Rabs_triang|]. apply Rplus_le_compat_r. eapply Rle_trans; [apply Rabs_triang|]. lra. }
  assert (T4 : Rabs (a + q) <= Rabs (q - (b + c)) + (Rabs b + Rabs c) + Rabs a).
  { replace (a + q) with ((q - (b + c)) + (b + c) + a) by ring. eapply Rle_trans; [apply Rabs_triang|]. apply Rplus_le_compat_r. eapply Rle_trans; [apply Rabs_triang|]. lra. }
  assert (P3 : u * Rabs (p + c) <= u * (u * (Rabs a + Rabs b) + (Rabs a + Rabs b) + Rabs c)) by (apply Rmult_le_compat_l; lra).
  assert (P4 : u * Rabs (a + q) <= u * (u * (Rabs b + Rabs c) + (Rabs b + Rabs c) + Rabs a)) by (apply Rmult_le_compat_l; lra).
  pose proof (Rabs_pos a). pose proof (Rabs_pos b). pose proof (Rabs_pos c).
  assert (0 <= u * Rabs c) by (apply Rmult_le_pos; lra). assert (0 <= u * Rabs a) by (apply Rmult_le_pos; lra).
  assert (0 <= u * (u * Rabs c)) by (apply Rmult_le_pos; lra). assert (0 <= u * (u * Rabs a)) by (apply Rmult_le_pos; lra).
  replace (l - r) with ((l - (p + c)) + (p - (a + b)) + - (r - (a + q)) + - (q - (b + c))) by ring.
  eapply Rle_trans; [apply Rabs_triang|]. rewrite Rabs_Ropp. eapply Rle_trans; [apply Rplus_le_compat_r, Rabs_triang|]. rewrite Rabs_Ropp.
  eapply Rle_trans; [apply Rplus_le_compat_r, Rplus_le_compat_r, Rabs_triang|]. simpl. lra.
Qed.
Lemma fassoc_mul_err x y z : fvalid x -> fvalid y -> fvalid z -> ffin (mul (mul x y) z) = true -> ffin (mul x (mul y z)) = true ->
  Rabs (fval (mul (mul x y) z) - fval (mul x (mul y z))) <=
    2 * gam 2 * Rabs (fval x * fval y * fval z) + eta64 * (2 + (1 + uro) * (Rabs (fval x) + Rabs (fval z))).
Proof.
  intros Hx Hy Hz F1 F2.
  destruct (fmul_err (mul x y) z) as (G1 & _ & E1 & _); try assumption; [now apply fvalid_mul|].
  destruct (fmul_err x (mul y z)) as (_ & G2 & E2 & _); try assumption; [now apply fvalid_mul|].
  destruct (fmul_err x y) as (_ & _ & E3 & _); try assumption. destruct (fmul_err y z) as (_ & _ & E4 & _); try assumption.
  set (l := fval (mul (mul x y) z)) in *. set (r := fval (mul x (mul y z))) in *. set (p := fval (mul x y)) in *. set (q := fval (mul y z)) in *.
  set (a := fval x) in *. set (b := fval y) in *. set (c := fval z) in *. unfold gam. pose proof uro_pos as U. set (u := uro) in *. pose proof eta64_pos as Et. set (e := eta64) in *.
  pose proof (Rabs_pos a). pose proof (Rabs_pos b). pose proof (Rabs_pos c).
  assert (Q1 : Rabs (p * c - a * b * c) <= (u * Rabs (a * b) + e) * Rabs c).
  { replace (p * c - a * b * c) with ((p - a * b) * c) by ring. rewrite Rabs_mult. apply Rmult_le_compat_r; assumption. }
  assert (Q2 : Rabs (a * q - a * b * c) <= Rabs a * (u * Rabs (b * c) + e)).
  { replace (a * q - a * b * c) with (a * (q - b * c)) by ring. rewrite Rabs_mult. apply Rmult_le_compat_l; assumption. }
  set (w := Rabs (a * b * c)) in *.
  assert (W1 : Rabs (a * b) * Rabs c = w) by (unfold w; rewrite (Rabs_mult (a * b) c); reflexivity).
  assert (W2 : Rabs a * Rabs (b * c) = w) by (unfold w; rewrite Rmult_assoc, (Rabs_mult a (b * c)); reflexivity).
  replace ((u * Rabs (a * b) + e) * Rabs c) with (u * w + e * Rabs c) in Q1 by (rewrite <- W1; ring).
  replace (Rabs a * (u * Rabs (b * c) + e)) with (u * w + e * Rabs a) in Q2 by (rewrite <- W2; ring).
  assert (S1 : Rabs (p * c) <= w + (u * w + e * Rabs c)).
  { replace (p * c) with (a * b * c + (p * c - a * b * c)) by ring. eapply Rle_trans; [apply Rabs_triang|]. fold w. lra. }
  assert (S2 : Rabs (a * q) <= w + (u * w + e * Rabs a)).
  { replace (a * q) with (a * b * c + (a * q - a * b * c)) by ring. eapply Rle_trans; [apply Rabs_triang|]. fold w. lra. }
  assert (P3 : u * Rabs (p * c) <= u * (w + (u * w + e * Rabs c))) by (apply Rmult_le_compat_l; lra).
  assert (P4 : u * Rabs (a * q) <= u * (w + (u * w + e * Rabs a))) by (apply Rmult_le_compat_l; lra).
  replace (l - r) with ((l - p * c) + (p * c - a * b * c) + - (r - a * q) + - (a * q - a * b * c)) by ring.
  eapply Rle_trans; [apply Rabs_triang|]. rewrite Rabs_Ropp. eapply Rle_trans; [apply Rplus_le_compat_r, Rabs_triang|]. rewrite Rabs_Ropp.
  eapply Rle_trans; [apply Rplus_le_compat_r, Rplus_le_compat_r, Rabs_triang|].
  replace (2 * ((1 + u) ^ 2 - 1) * w + e * (2 + (1 + u) * (Rabs a + Rabs c)))
    with ((u * (w + (u * w + e * Rabs c)) + e) + (u * w + e * Rabs c) + (u * (w + (u * w + e * Rabs a)) + e) + (u * w + e * Rabs a)) by (simpl; ring).
  lra.
Qed.

(** ** Polynomials *)
Section PolyAdd.
Context {T : Type} {O : Ops T}.
Hypothesis L : RingLaws O.
Hypothesis EQ : EqLaws O.
Lemma poly_ext (p q : poly T) : length p = length q -> (forall i, coefn p i = coefn q i) -> p = q.
Proof. intros Hl H. apply (nth_ext p q zero zero Hl). intros i _. exact (H i). Qed.
Lemma peqb_refl (p : poly T) : peqb p p = true.
Proof.
  unfold peqb. rewrite Nat.eqb_refl. cbn [andb]. induction p as [|a p IH]; [reflexivity|]. cbn [combine forallb fst snd]. rewrite IH. now rewrite (proj2 (EQ a a) eq_refl).
Qed.
Let Lr := rl_ring O L.
Lemma padd_assoc (p q r : poly T) : p <> [] -> q <> [] -> r <> [] -> is_associative padd peqb p q r = Ret true.
Proof.
  intros Hp Hq Hr. unfold is_associative.
  destruct (padd_ok L p q Hp Hq) as (s & E1 & L1 & C1). rewrite E1. cbn [bind]. assert (s <> []) by (intros ->; destruct p; [congruence|cbn [length] in L1; lia]).
  destruct (padd_ok L s r) as (l & E2 & L2 & C2); try assumption. rewrite E2. cbn [bind].
  destruct (padd_ok L q r Hq Hr) as (u & E3 & L3 & C3). rewrite E3. cbn [bind]. assert (u <> []) by (intros ->; destruct q; [congruence|cbn [length] in L3; lia]).
  destruct (padd_ok L p u) as (v & E4 & L4 & C4); try assumption. rewrite E4. cbn [bind]. f_equal.
  replace v with l; [apply peqb_refl|]. apply poly_ext; [lia|]. intros i. rewrite C2, C1, C4, C3. symmetry. apply (Ring_theory.Radd_assoc Lr).
Qed.
Lemma padd_comm (p q : poly T) : p <> [] -> q <> [] -> padd p q = padd q p.
Proof.
  intros Hp Hq. destruct (padd_ok L p q Hp Hq) as (s & E1 & L1 & C1). destruct (padd_ok L q p Hq Hp) as (u & E3 & L3 & C3). rewrite E1, E3. f_equal.
  apply poly_ext; [lia|]. intros i. rewrite C1, C3. apply (Ring_theory.Radd_comm Lr).
Qed.
Lemma padd_id (p : poly T) : p <> [] -> exists e, pid_add = Ret e /\ padd p e = Ret p /\ padd e p = Ret p.
Proof.
  intros Hp. exists [zero]. split; [reflexivity|]. assert (H : padd p [zero] = Ret p).
  { destruct (padd_ok L p [zero] Hp ltac:(discriminate)) as (s & E1 & L1 & C1). rewrite E1. f_equal. apply poly_ext.
    - rewrite L1. destruct p; [congruence|cbn [length]; lia].
    - intros i. rewrite C1. unfold coefn at 2. rewrite (Ring_theory.Radd_comm Lr). destruct i as [|[|i]]; cbn; apply (Ring_theory.Radd_0_l Lr). }
  split; [exact H|]. rewrite padd_comm by (assumption || discriminate). exact H.
Qed.
Add Ring AlgRing : (rl_ring O L).
Lemma cassoc (z w v : cplx T) : is_associative coperate_add ceqb z w v = Ret true /\ is_associative (fun a b => Ret (coperate_mul a b)) ceqb z w v = Ret true.
Proof.
  assert (CE : forall a b : cplx T, a = b -> ceqb a b = true).
  { intros a b ->. unfold ceqb. now rewrite !(proj2 (EQ _ _) eq_refl). }
  unfold is_associative, coperate_add, coperate_mul. cbn [bind]. split; f_equal; apply CE; cbn [re im]; f_equal; ring.
Qed.
Lemma cident (z : cplx T) : coperate_add z cid_add = Ret z /\ coperate_add cid_add z = Ret z /\ coperate_mul z cid_mul = z /\ coperate_mul cid_mul z = z.
Proof. destruct z as [a b]. unfold coperate_add, coperate_mul, cid_add, cid_mul. cbn [re im]. repeat split; repeat f_equal; ring. Qed.
Lemma ccomm (z w : cplx T) : coperate_add z w = coperate_add w z /\ coperate_mul z w = coperate_mul w z.
Proof. destruct z as [a b], w as [c d]. unfold coperate_add, coperate_mul. cbn [re im]. split; [apply f_equal|]; apply f_equal2; ring. Qed.
End PolyAdd.
