(** Factorial and binomial coefficients. *)
From Coq Require Import Arith Lia List Bool ZArith Factorial.
From Verif Require Import Outcome Scalar Int_model Special_model Stat_model Stat_spec.
Local Open Scope Z_scope.

Lemma ichk_u64_ok z : 0 <= z <= 2 ^ 64 - 1 -> ichk u64 z = Ret z.
Proof.
  intros H. unfold ichk. change (imin u64) with 0. change (imax u64) with (2 ^ 64 - 1).
  destruct (Z.leb_spec 0 z); [|lia]. destruct (Z.leb_spec z (2 ^ 64 - 1)); [reflexivity|lia].
Qed.
Lemma ichk_u64_panic z : 2 ^ 64 - 1 < z -> ichk u64 z = Panic.
Proof.
  intros H. unfold ichk. change (imin u64) with 0. change (imax u64) with (2 ^ 64 - 1).
  destruct (Z.leb_spec 0 z); [|reflexivity]. destruct (Z.leb_spec z (2 ^ 64 - 1)); [lia|reflexivity].
Qed.

Lemma Zfact_pos n : 1 <= Z.of_nat (fact n).
Proof. pose proof (lt_O_fact n). lia. Qed.

Lemma factorial_loop_ok k : forall r,
  1 <= r -> r * Z.of_nat (fact k) <= 2 ^ 64 - 1 ->
  factorial_loop true k r = Ret (r * Z.of_nat (fact k)).
Proof.
  induction k as [|k IH]; intros r Hr H; [cbn; f_equal; lia|].
  cbn [factorial_loop]. unfold u64_mul.
  replace (fact (S k)) with (S k * fact k)%nat in * by reflexivity.
  rewrite Nat2Z.inj_mul in *. pose proof (Zfact_pos k).
  rewrite ichk_u64_ok by nia. cbn [bind].
  rewrite IH; [f_equal; ring| nia | nia].
Qed.

Lemma factorial_loop_panic k : forall r,
  1 <= r -> 2 ^ 64 - 1 < r * Z.of_nat (fact k) -> r <= 2 ^ 64 - 1 ->
  factorial_loop true k r = Panic.
Proof.
  induction k as [|k IH]; intros r Hr H H'; [cbn in H; lia|].
  cbn [factorial_loop]. unfold u64_mul.
  replace (fact (S k)) with (S k * fact k)%nat in * by reflexivity.
  rewrite Nat2Z.inj_mul in *. pose proof (Zfact_pos k).
  destruct (Z_le_gt_dec (r * Z.of_nat (S k)) (2 ^ 64 - 1)) as [L|G].
  - rewrite ichk_u64_ok by nia. cbn [bind]. apply IH; nia.
  - rewrite ichk_u64_panic by lia. reflexivity.
Qed.

Lemma fact_mono n m : (n <= m)%nat -> Z.of_nat (fact n) <= Z.of_nat (fact m).
Proof. intros. apply Nat2Z.inj_le, fact_le. assumption. Qed.

Fixpoint Zfact (n : nat) : Z := match n with O => 1 | S k => Z.of_nat (S k) * Zfact k end.
Lemma Zfact_fact n : Z.of_nat (fact n) = Zfact n.
Proof.
  induction n as [|n IH]; [reflexivity|].
  replace (fact (S n)) with (S n * fact n)%nat by reflexivity.
  rewrite Nat2Z.inj_mul, IH. reflexivity.
Qed.

Lemma fact_le_20 n : (n <= 20)%nat -> Z.of_nat (fact n) <= 2 ^ 64 - 1.
Proof.
  intros H. apply Z.le_trans with (Z.of_nat (fact 20)); [apply fact_mono; assumption|].
  rewrite Zfact_fact. vm_compute. discriminate.
Qed.
Lemma fact_gt_20 n : (20 < n)%nat -> 2 ^ 64 - 1 < Z.of_nat (fact n).
Proof.
  intros H. apply Z.lt_le_trans with (Z.of_nat (fact 21)); [|apply fact_mono; assumption].
  rewrite Zfact_fact. vm_compute. reflexivity.
Qed.

Lemma factorial_ok n : (n <= 20)%nat -> factorial true n = Ret (Z.of_nat (fact n)).
Proof.
  intros H. unfold factorial. rewrite factorial_loop_ok.
  - f_equal; lia.
  - lia.
  - pose proof (fact_le_20 n H). lia.
Qed.
Lemma factorial_panic n : (20 < n)%nat -> factorial true n = Panic.
Proof.
  intros H. unfold factorial. apply factorial_loop_panic; [lia| |lia].
  pose proof (fact_gt_20 n H). lia.
Qed.

(** ** Unchecked arithmetic *)
Lemma factorial_loop_wrap k : forall r,
  factorial_loop false k (r mod 2 ^ 64) = Ret ((r * Z.of_nat (fact k)) mod 2 ^ 64).
Proof.
  induction k as [|k IH]; intros r; [cbn [factorial_loop fact]; f_equal; f_equal; lia|].
  cbn [factorial_loop]. unfold u64_mul. cbn [bind].
  rewrite Z.mul_mod_idemp_l by lia. rewrite IH. f_equal. f_equal.
  replace (fact (S k)) with (S k * fact k)%nat by reflexivity.
  rewrite Nat2Z.inj_mul. ring.
Qed.
Lemma factorial_wrap n : factorial false n = Ret (Z.of_nat (fact n) mod 2 ^ 64).
Proof.
  unfold factorial. change 1 with (1 mod 2 ^ 64) at 1. rewrite factorial_loop_wrap. f_equal. f_equal. lia.
Qed.

Lemma fact_divide n m : (n <= m)%nat -> (Z.of_nat (fact n) | Z.of_nat (fact m)).
Proof.
  induction 1 as [|m _ IH]; [apply Z.divide_refl|].
  replace (fact (S m)) with (S m * fact m)%nat by reflexivity.
  rewrite Nat2Z.inj_mul. apply Z.divide_mul_r. assumption.
Qed.
Lemma fact_wrap_zero n : (66 <= n)%nat -> Z.of_nat (fact n) mod 2 ^ 64 = 0.
Proof.
  intros H. apply Z.mod_divide; [lia|]. apply Z.divide_trans with (Z.of_nat (fact 66)).
  - rewrite Zfact_fact. apply Z.mod_divide; [lia|]. vm_compute. reflexivity.
  - apply fact_divide. assumption.
Qed.

(** ** Pascal's triangle *)
Lemma choose_gt n : forall k, (n < k)%nat -> choose n k = 0%nat.
Proof.
  induction n as [|n IH]; intros [|k] H; try lia; cbn [choose]; [reflexivity|].
  rewrite !IH by lia. reflexivity.
Qed.
Lemma choose_0 n : choose n 0 = 1%nat.
Proof. destruct n; reflexivity. Qed.
Lemma choose_n n : choose n n = 1%nat.
Proof. induction n as [|n IH]; [reflexivity|]. cbn [choose]. rewrite IH, choose_gt by lia. lia. Qed.

Lemma choose_fact n : forall k, (k <= n)%nat ->
  (choose n k * (fact k * fact (n - k)) = fact n)%nat.
Proof.
  induction n as [|n IH]; intros [|k] H; try lia.
  - reflexivity.
  - rewrite choose_0, Nat.sub_0_r. change (fact 0) with 1%nat. rewrite !Nat.mul_1_l. reflexivity.
  - cbn [choose]. replace (S n - S k)%nat with (n - k)%nat by lia.
    assert (E1 := IH k ltac:(lia)).
    change (fact (S k)) with (S k * fact k)%nat. change (fact (S n)) with (S n * fact n)%nat.
    destruct (Nat.eq_dec k n) as [->|Hk].
    + rewrite (choose_gt n (S n)), choose_n by lia. rewrite Nat.sub_diag. change (fact 0) with 1%nat. ring.
    + assert (E2 := IH (S k) ltac:(lia)).
      change (fact (S k)) with (S k * fact k)%nat in E2.
      replace (n - k)%nat with (S (n - S k)) in * by lia.
      change (fact (S (n - S k))) with (S (n - S k) * fact (n - S k))%nat in *.
      set (a := choose n k) in *. set (b := choose n (S k)) in *.
      set (f := fact k) in *. set (g := fact (n - S k)) in *.
      replace (S n) with (S k + S (n - S k))%nat by lia.
      transitivity (S k * (a * (f * (S (n - S k) * g))) + S (n - S k) * (b * (S k * f * g)))%nat;
        [ring | rewrite E1, E2; ring].
Qed.

Lemma choose_fact_Z n k : (k <= n)%nat ->
  Z.of_nat (fact n) = Z.of_nat (choose n k) * (Z.of_nat (fact k) * Z.of_nat (fact (n - k))).
Proof. intros H. rewrite <- (choose_fact n k H), !Nat2Z.inj_mul. reflexivity. Qed.

Lemma choose_pos n k : (k <= n)%nat -> (1 <= choose n k)%nat.
Proof.
  intros H. pose proof (choose_fact n k H). pose proof (lt_O_fact n).
  destruct (choose n k); [simpl in *; lia|lia].
Qed.

Lemma choose_le_pow n : forall k, (choose n k <= 2 ^ n)%nat.
Proof.
  induction n as [|n IH]; intros [|k]; cbn [choose Nat.pow]; try lia.
  - pose proof (Nat.pow_nonzero 2 n). lia.
  - pose proof (IH k). pose proof (IH (S k)). lia.
Qed.

Lemma binom_ok n k : (k <= n)%nat -> (n <= 20)%nat -> binom true n k = Ret (Z.of_nat (choose n k)).
Proof.
  intros Hk Hn. unfold binom. rewrite !factorial_ok by lia. cbn [bind].
  rewrite usub_ok by assumption. cbn [bind]. rewrite factorial_ok by lia. cbn [bind].
  pose proof (choose_fact_Z n k Hk) as E. pose proof (choose_pos n k Hk).
  pose proof (Zfact_pos k). pose proof (Zfact_pos (n - k)). pose proof (fact_le_20 n Hn).
  unfold u64_mul. rewrite ichk_u64_ok by nia. cbn [bind].
  destruct (Z.eqb_spec (Z.of_nat (fact k) * Z.of_nat (fact (n - k))) 0) as [E0|_]; [nia|].
  rewrite E, Z.div_mul by nia. f_equal. unfold as_int. cbn [isigned iwidth u32 andb].
  apply Z.mod_small. pose proof (choose_le_pow n k).
  assert (2 ^ n <= 2 ^ 20)%nat by (apply Nat.pow_le_mono_r; lia).
  split; [lia|]. apply Z.le_lt_trans with (Z.of_nat (2 ^ 20)); [lia|]. vm_compute. reflexivity.
Qed.

Lemma binom_panic_n n k : (20 < n)%nat -> binom true n k = Panic.
Proof. intros H. unfold binom. rewrite factorial_panic by assumption. reflexivity. Qed.
Lemma binom_panic_k n k : (n < k)%nat -> binom true n k = Panic.
Proof.
  intros H. unfold binom.
  destruct (factorial true n); [|reflexivity]. cbn [bind].
  destruct (factorial true k); [|reflexivity]. cbn [bind].
  unfold usub. destruct (Nat.leb_spec k n); [lia|reflexivity].
Qed.
