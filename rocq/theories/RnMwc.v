(** The period of MWC. *)
From Coq Require Import NArith ZArith Znumtheory Zpow_facts List Lia Bool.
From Verif Require Import RnModel.
Local Open Scope Z_scope.

Fixpoint nodiv (k : nat) (d p : Z) : bool :=
  match k with O => true | S k' => negb (p mod d =? 0) && nodiv k' (d + 1) p end.

Lemma nodiv_spec : forall k d p e, 0 < d -> nodiv k d p = true -> d <= e < d + Z.of_nat k -> ~ (e | p).
Proof.
  induction k as [|k IH]; intros d p e D H L; [lia|].
  cbn [nodiv] in H. apply andb_prop in H. destruct H as (H1 & H2).
  destruct (Z.eq_dec e d) as [E|E].
  - subst e. intros X. apply Z.mod_divide in X; [|lia]. rewrite X in H1. discriminate.
  - apply (IH (d + 1) p e); auto; lia.
Qed.

Lemma prime_check : forall p r, 1 < p -> 1 < r -> p < r * r ->
  nodiv (Z.to_nat (r - 2)) 2 p = true -> prime p.
Proof.
  intros p r P R S H. apply prime_alt. split; auto. intros n N (k & E).
  assert (D : forall e, 2 <= e < r -> ~ (e | p)).
  { intros e L. apply (nodiv_spec (Z.to_nat (r - 2)) 2); auto; lia. }
  destruct (Z_lt_le_dec n r) as [L|L].
  - apply (D n); [lia|]. exists k. auto.
  - apply (D k).
    + assert (k > 1) by nia. assert (k < r) by nia. lia.
    + exists n. lia.
Qed.

Lemma divides_sub1 : forall p x y, (p | x - 1) -> (p | y - 1) -> (p | x * y - 1).
Proof.
  intros p x y X Y. replace (x * y - 1) with (x * (y - 1) + (x - 1)) by ring.
  apply Z.divide_add_r; auto. apply Z.divide_mul_r. auto.
Qed.

Lemma divides_pow1 : forall p x k, 0 <= k -> (p | x - 1) -> (p | x ^ k - 1).
Proof.
  intros p x k K H. pattern k. apply natlike_ind; auto.
  - exists 0. reflexivity.
  - intros z Z0 I. rewrite Z.pow_succ_r by auto. apply divides_sub1; auto.
Qed.

(** The order of B modulo p is the prime q. *)
Lemma order : forall p q B, prime q -> ~ (p | B - 1) -> (p | B ^ q - 1) ->
  forall d, 0 <= d -> ((p | B ^ d - 1) <-> (q | d)).
Proof.
  intros p q B Q NB H d D. pose proof (prime_ge_2 _ Q) as Q2. split.
  - intros X. destruct (Zdivide_dec q d) as [|N]; auto. exfalso.
    assert (d <> 0) by (intro; subst; apply N; exists 0; reflexivity).
    pose proof (prime_rel_prime q Q d N) as R. apply rel_prime_bezout in R. destruct R as [u v R].
    set (a := u + (Z.abs u + 1) * d). set (b := (Z.abs u + 1) * q - v).
    assert (E : a * q = 1 + b * d) by (unfold a, b; nia).
    assert (A : 1 <= a) by (unfold a; nia).
    assert (Bp : 0 <= b) by nia.
    apply NB.
    assert (Y1 : (p | (B ^ q) ^ a - 1)) by (apply divides_pow1; auto; lia).
    assert (Y2 : (p | (B ^ d) ^ b - 1)) by (apply divides_pow1; auto; lia).
    rewrite <- Z.pow_mul_r in Y1, Y2 by lia.
    rewrite (Z.mul_comm q a), E, Z.pow_add_r, Z.pow_1_r in Y1 by nia.
    rewrite (Z.mul_comm d b) in Y2.
    replace (B - 1) with ((B * B ^ (b * d) - 1) - B * (B ^ (b * d) - 1)) by ring.
    apply Z.divide_sub_r; auto. apply Z.divide_mul_r. auto.
  - intros (k & E). subst d. rewrite Z.mul_comm, Z.pow_mul_r by nia.
    apply divides_pow1; auto. nia.
Qed.

(** One half of MWC. *)
Definition half (a x : N) : N := word (a * (N.land x 65535) + N.shiftr x 16).

Section Half.
Variable a : N.
Hypothesis Ha : (1 < a <= 65536)%N.
Let p := Z.of_N a * 65536 - 1.
Variable q : Z.
Hypothesis Pp : prime p.
Hypothesis Pq : prime q.
Hypothesis Hq : (p | 65536 ^ q - 1).

Lemma half_step : forall x, 0 < Z.of_N x < p ->
  0 < Z.of_N (half a x) < p /\ (p | 65536 * Z.of_N (half a x) - Z.of_N x).
Proof.
  intros x L. unfold half, word.
  change 65535%N with (N.ones 16). rewrite N.land_ones, N.shiftr_div_pow2.
  change (2 ^ 16)%N with 65536%N.
  pose proof (N.div_mod x 65536 ltac:(discriminate)) as D.
  pose proof (N.mod_lt x 65536 ltac:(discriminate)) as M.
  generalize dependent (x / 65536)%N. generalize dependent (x mod 65536)%N. intros lo M hi D.
  unfold p in *.
  assert (W : 65536 * Z.of_N (a * lo + hi) = Z.of_N x + (Z.of_N a * 65536 - 1) * Z.of_N lo).
  { rewrite D, !N2Z.inj_add, !N2Z.inj_mul. change (Z.of_N 65536) with 65536. ring. }
  assert (B : 0 < Z.of_N (a * lo + hi) < Z.of_N a * 65536 - 1).
  { assert (Z.of_N lo <= 65535) by lia. split; nia. }
  rewrite N.mod_small.
  - split; auto. rewrite W. exists (Z.of_N lo). ring.
  - unfold wide. lia.
Qed.

Lemma half_iter : forall n x, 0 < Z.of_N x < p ->
  0 < Z.of_N (Nat.iter n (half a) x) < p /\
  (p | 65536 ^ Z.of_nat n * Z.of_N (Nat.iter n (half a) x) - Z.of_N x).
Proof.
  induction n as [|n IH]; intros x L.
  - split; auto. exists 0. change (Nat.iter 0 (half a) x) with x. change (Z.of_nat 0) with 0.
    rewrite Z.pow_0_r. ring.
  - change (Nat.iter (S n) (half a) x) with (half a (Nat.iter n (half a) x)).
    destruct (IH x L) as (L1 & D1). destruct (half_step _ L1) as (L2 & D2). split; auto.
    rewrite Nat2Z.inj_succ, Z.pow_succ_r by lia.
    set (y := Z.of_N (Nat.iter n (half a) x)) in *.
    set (z := Z.of_N (half a (Nat.iter n (half a) x))) in *.
    set (e := 65536 ^ Z.of_nat n) in *.
    replace (65536 * e * z - Z.of_N x) with (e * (65536 * z - y) + (e * y - Z.of_N x)) by ring.
    apply Z.divide_add_r; auto. apply Z.divide_mul_r. auto.
Qed.

Lemma p_not_pow : forall n, ~ (p | 65536 ^ Z.of_nat n).
Proof.
  intros n H. assert (X : (p | 65536)).
  { induction n as [|n IH].
    - change (65536 ^ Z.of_nat 0) with 1 in H. apply Z.divide_trans with 1; auto. apply Z.divide_1_l.
    - rewrite Nat2Z.inj_succ, Z.pow_succ_r in H by lia.
      destruct (prime_mult p Pp _ _ H); auto. }
  apply Z.divide_pos_le in X; [|lia]. unfold p in X. lia.
Qed.

Lemma small_zero : forall x y, 0 < x < p -> 0 < y < p -> (p | x - y) -> x = y.
Proof. intros x y X Y (k & E). assert (k = 0) by nia. nia. Qed.

Lemma half_le : forall n m x, (m <= n)%nat -> 0 < Z.of_N x < p ->
  (Nat.iter n (half a) x = Nat.iter m (half a) x <-> (q | Z.of_nat n - Z.of_nat m)).
Proof.
  intros n m x L X.
  destruct (half_iter n x X) as (Ln & Dn). destruct (half_iter m x X) as (Lm & Dm).
  assert (NB : ~ (p | 65536 - 1)).
  { intros H. apply Z.divide_pos_le in H; [|lia]. unfold p in H. lia. }
  rewrite <- (order p q 65536 Pq NB Hq) by lia.
  assert (E : 65536 ^ Z.of_nat n = 65536 ^ Z.of_nat m * 65536 ^ (Z.of_nat n - Z.of_nat m)).
  { rewrite <- Z.pow_add_r by lia. f_equal. lia. }
  rewrite E in Dn. pose proof (p_not_pow m) as NP.
  set (f := 65536 ^ Z.of_nat m) in *. set (g := 65536 ^ (Z.of_nat n - Z.of_nat m)) in *.
  split; intros H.
  - rewrite H in Dn. set (u := Z.of_N (Nat.iter m (half a) x)) in *.
    assert (Y : (p | f * (u * (g - 1)))).
    { replace (f * (u * (g - 1))) with ((f * g * u - Z.of_N x) - (f * u - Z.of_N x)) by ring.
      apply Z.divide_sub_r; auto. }
    destruct (prime_mult p Pp _ _ Y) as [Y1|Y1]; [contradiction|].
    destruct (prime_mult p Pp _ _ Y1) as [Y2|Y2]; auto.
    apply Z.divide_pos_le in Y2; lia.
  - apply N2Z.inj. apply small_zero; auto.
    set (u := Z.of_N (Nat.iter m (half a) x)) in *. set (v := Z.of_N (Nat.iter n (half a) x)) in *.
    assert (Y : (p | f * (v - u))).
    { replace (f * (v - u)) with ((f * g * v - Z.of_N x) - (f * u - Z.of_N x) - f * v * (g - 1)) by ring.
      apply Z.divide_sub_r; [apply Z.divide_sub_r; auto|]. apply Z.divide_mul_r. auto. }
    destruct (prime_mult p Pp _ _ Y) as [Y1|Y1]; [contradiction|auto].
Qed.

Lemma half_period : forall n m x, 0 < Z.of_N x < p ->
  (Nat.iter n (half a) x = Nat.iter m (half a) x <-> (q | Z.of_nat n - Z.of_nat m)).
Proof.
  intros n m x X. destruct (le_ge_dec m n) as [L|L].
  - apply half_le; auto.
  - pose proof (half_le m n x L X) as (H1 & H2). split; intros H.
    + apply Z.divide_opp_r. rewrite Z.opp_sub_distr, Z.add_comm. apply H1. auto.
    + symmetry. apply H2. apply Z.divide_opp_r in H. rewrite Z.opp_sub_distr, Z.add_comm in H. auto.
Qed.
End Half.

Lemma pow_one : forall p q, 1 < p -> 0 <= q -> Zpow_mod 65536 q p = 1 -> (p | 65536 ^ q - 1).
Proof.
  intros p q P Q H. rewrite Zpow_mod_correct in H by lia.
  apply Z.mod_divide; [lia|]. rewrite Zminus_mod, H, (Z.mod_small 1) by lia. reflexivity.
Qed.

Lemma mwc_iter : forall n z w,
  Nat.iter n mwc_next (z, w) = (Nat.iter n (half 36969) z, Nat.iter n (half 18000) w).
Proof.
  induction n as [|n IH]; intros; [reflexivity|].
  change (Nat.iter (S n) mwc_next (z, w)) with (mwc_next (Nat.iter n mwc_next (z, w))).
  rewrite IH. reflexivity.
Qed.

Definition P1 := 2422800383.
Definition Q1 := 1211400191.
Definition P2 := 1179647999.
Definition Q2 := 589823999.

Lemma prime_P1 : prime P1.
Proof. apply (prime_check _ 49300); [reflexivity|reflexivity|reflexivity|vm_compute; reflexivity]. Qed.
Lemma prime_Q1 : prime Q1.
Proof. apply (prime_check _ 35000); [reflexivity|reflexivity|reflexivity|vm_compute; reflexivity]. Qed.
Lemma prime_P2 : prime P2.
Proof. apply (prime_check _ 34400); [reflexivity|reflexivity|reflexivity|vm_compute; reflexivity]. Qed.
Lemma prime_Q2 : prime Q2.
Proof. apply (prime_check _ 24300); [reflexivity|reflexivity|reflexivity|vm_compute; reflexivity]. Qed.

Lemma mwc_period_Z : forall z w n m, 0 < Z.of_N z < P1 -> 0 < Z.of_N w < P2 ->
  (Nat.iter n mwc_next (z, w) = Nat.iter m mwc_next (z, w) <-> (Q1 * Q2 | Z.of_nat n - Z.of_nat m)).
Proof.
  intros z w n m Z1 W1. rewrite !mwc_iter.
  assert (H1 : (P1 | 65536 ^ Q1 - 1)) by (apply pow_one; [reflexivity|discriminate|vm_compute; reflexivity]).
  assert (H2 : (P2 | 65536 ^ Q2 - 1)) by (apply pow_one; [reflexivity|discriminate|vm_compute; reflexivity]).
  pose proof (half_period 36969 ltac:(split; [reflexivity|discriminate]) Q1 prime_P1 prime_Q1 H1 n m z Z1) as E1.
  pose proof (half_period 18000 ltac:(split; [reflexivity|discriminate]) Q2 prime_P2 prime_Q2 H2 n m w W1) as E2.
  generalize dependent (Z.of_nat n - Z.of_nat m). intros d E1 E2. split.
  - intros H. injection H as A B. apply E1 in A. apply E2 in B.
    destruct A as (k & A). subst d.
    assert (R : rel_prime Q2 Q1).
    { apply prime_rel_prime; [exact prime_Q2|]. intros X. apply Z.mod_divide in X; [|discriminate].
      vm_compute in X. discriminate. }
    rewrite (Z.mul_comm k Q1) in B. pose proof (Gauss _ _ _ B R) as (j & J).
    exists j. rewrite J. ring.
  - intros (k & H). f_equal; [apply E1|apply E2]; rewrite H.
    + exists (k * Q2). ring.
    + exists (k * Q1). ring.
Qed.
