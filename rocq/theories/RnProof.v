(** Facts about the generators. *)
From Coq Require Import NArith ZArith List Lia Bool Znumtheory Zpow_facts.
From Verif Require Import RnModel.
Import ListNotations.
Local Open Scope N_scope.

Lemma wide_pow : wide = 2 ^ 32. Proof. reflexivity. Qed.

Lemma word_lt : forall x, word x < wide.
Proof. intros. apply N.mod_lt. discriminate. Qed.

Lemma high_zero : forall x i, x < wide -> 32 <= i -> N.testbit x i = false.
Proof.
  intros x i L H. rewrite wide_pow in L. rewrite <- (N.mod_small x (2 ^ 32)) by auto.
  apply N.mod_pow2_bits_high. auto.
Qed.

Lemma bits_lt : forall x, (forall i, 32 <= i -> N.testbit x i = false) -> x < wide.
Proof.
  intros x H. rewrite wide_pow. assert (E : x = x mod 2 ^ 32).
  { apply N.bits_inj. intro i. destruct (N.lt_ge_cases i 32).
    - rewrite N.mod_pow2_bits_low; auto.
    - rewrite N.mod_pow2_bits_high, H; auto. }
  rewrite E. apply N.mod_lt. discriminate.
Qed.

Lemma left_bits : forall k x i, i < 32 ->
  N.testbit (left_mix k x) i = xorb (N.testbit x i) (if k <=? i then N.testbit x (i - k) else false).
Proof.
  intros k x i L. unfold left_mix, word. rewrite N.lxor_spec, wide_pow, N.mod_pow2_bits_low by auto.
  f_equal. destruct (N.leb_spec k i).
  - apply N.shiftl_spec_high'. auto.
  - apply N.shiftl_spec_low. auto.
Qed.

Lemma left_lt : forall k x, x < wide -> left_mix k x < wide.
Proof.
  intros k x L. apply bits_lt. intros i H. unfold left_mix. rewrite N.lxor_spec, (high_zero x), high_zero; auto.
  apply word_lt.
Qed.

Lemma right_bits : forall k x i,
  N.testbit (right_mix k x) i = xorb (N.testbit x i) (N.testbit x (i + k)).
Proof. intros. unfold right_mix. rewrite N.lxor_spec, N.shiftr_spec'. auto. Qed.

Lemma right_lt : forall k x, x < wide -> right_mix k x < wide.
Proof.
  intros k x L. apply bits_lt. intros i H. rewrite right_bits, !high_zero; auto. lia.
Qed.

Lemma left_inj : forall k x y, 0 < k -> x < wide -> y < wide ->
  left_mix k x = left_mix k y -> x = y.
Proof.
  intros k x y K Lx Ly E. apply N.bits_inj. intro i.
  destruct (N.lt_ge_cases i 32) as [L|L]; [|rewrite !high_zero; auto].
  revert L. induction i as [i IH] using (well_founded_induction N.lt_wf_0). intro L.
  pose proof (f_equal (fun z => N.testbit z i) E) as B. cbv beta in B. rewrite !left_bits in B by auto.
  destruct (N.leb_spec k i).
  - rewrite (IH (i - k)) in B by lia.
    destruct (N.testbit x i), (N.testbit y i), (N.testbit y (i - k)); auto; discriminate.
  - rewrite !xorb_false_r in B. auto.
Qed.

Lemma right_inj : forall k x y, 0 < k -> x < wide -> y < wide ->
  right_mix k x = right_mix k y -> x = y.
Proof.
  intros k x y K Lx Ly E.
  assert (G : forall d i, 32 <= i + d -> N.testbit x i = N.testbit y i).
  { induction d as [d IH] using (well_founded_induction N.lt_wf_0). intros i L.
    destruct (N.lt_ge_cases i 32) as [L'|L']; [|rewrite !high_zero; auto].
    pose proof (f_equal (fun z => N.testbit z i) E) as B. cbv beta in B. rewrite !right_bits in B.
    rewrite (IH (d - 1) ltac:(lia) (i + k)) in B by lia.
    destruct (N.testbit x i), (N.testbit y i), (N.testbit y (i + k)); auto; discriminate. }
  apply N.bits_inj. intro i. apply (G 32). lia.
Qed.

Lemma shr3_lt : forall x, x < wide -> shr3 x < wide.
Proof. intros. apply left_lt, right_lt, left_lt. auto. Qed.

Lemma shr3_inj : forall x y, x < wide -> y < wide -> shr3 x = shr3 y -> x = y.
Proof.
  intros x y Lx Ly E. unfold shr3 in E.
  apply left_inj in E; [|lia|apply right_lt, left_lt; auto|apply right_lt, left_lt; auto].
  apply right_inj in E; [|lia|apply left_lt; auto|apply left_lt; auto].
  apply left_inj in E; auto. lia.
Qed.

(** * The congruential generator *)
Local Open Scope Z_scope.

Fixpoint geo (a : Z) (n : nat) : Z := match n with O => 0 | S n' => 1 + a * geo a n' end.

Lemma geo_add : forall a n m, geo a (n + m) = geo a n + a ^ Z.of_nat n * geo a m.
Proof.
  intros a n m. induction n as [|n IH].
  - cbn [plus geo]. change (Z.of_nat 0) with 0. rewrite Z.pow_0_r. ring.
  - cbn [plus geo]. rewrite IH, Nat2Z.inj_succ, Z.pow_succ_r by lia. ring.
Qed.

Lemma geo_pow : forall a n, a ^ Z.of_nat n = 1 + (a - 1) * geo a n.
Proof.
  intros a n. induction n as [|n IH].
  - cbn [geo]. change (Z.of_nat 0) with 0. rewrite Z.pow_0_r. ring.
  - rewrite Nat2Z.inj_succ, Z.pow_succ_r, IH by lia. cbn [geo]. ring.
Qed.

Lemma pow_mod4 : forall b n, (1 + 4 * b) ^ Z.of_nat n = 1 + 4 * (b * geo (1 + 4 * b) n).
Proof. intros. rewrite geo_pow. ring. Qed.

Lemma div_odd : forall k o x, 0 <= k -> (2 ^ k | (1 + 2 * o) * x) -> (2 ^ k | x).
Proof.
  intros k o x K D. apply Gauss with (1 + 2 * o); auto.
  assert (R : rel_prime (1 + 2 * o) 2).
  { apply bezout_rel_prime. apply Bezout_intro with 1 (- o). ring. }
  apply rel_prime_sym. apply rel_prime_Zpower_r; auto.
Qed.

Lemma geo_odd : forall b n, exists o, geo (1 + 4 * b) (S (n + n)) = 1 + 2 * o.
Proof.
  intros b n. cbn [geo]. rewrite geo_add, pow_mod4.
  exists ((1 + 4 * b) * (geo (1 + 4 * b) n * (1 + 2 * (b * geo (1 + 4 * b) n)))). ring.
Qed.

Lemma even_odd : forall n, exists m, (n = m + m \/ n = S (m + m))%nat.
Proof.
  induction n as [|n (m & [E|E])].
  - exists 0%nat. auto.
  - exists m. right. lia.
  - exists (S m). left. lia.
Qed.

(** For a multiplier that is 1 modulo 4, a power of two divides the sum exactly
    when it divides the number of terms. *)
Lemma geo_div : forall b k n, (2 ^ Z.of_nat k | geo (1 + 4 * b) n) <-> (2 ^ Z.of_nat k | Z.of_nat n).
Proof.
  intros b k. induction k as [|k IH]; intros n.
  - change (2 ^ Z.of_nat 0) with 1. split; intros _; apply Z.divide_1_l.
  - rewrite Nat2Z.inj_succ, Z.pow_succ_r by lia. destruct (even_odd n) as (m & [E0|E0]); subst n.
    + rewrite geo_add, pow_mod4. set (g := geo (1 + 4 * b) m) in *.
      replace (g + (1 + 4 * (b * g)) * g) with (2 * ((1 + 2 * (b * g)) * g)) by ring.
      replace (Z.of_nat (m + m)) with (2 * Z.of_nat m) by lia.
      split; intros D.
      * apply Z.mul_divide_cancel_l in D; [|lia]. apply div_odd in D; [|lia].
        apply Z.mul_divide_mono_l. apply IH. auto.
      * apply Z.mul_divide_cancel_l in D; [|lia]. apply Z.mul_divide_mono_l.
        apply Z.divide_mul_r. apply IH. auto.
    + split; intros (z & D); exfalso.
      * destruct (geo_odd b m) as (o & E). rewrite E in D.
        replace (z * (2 * 2 ^ Z.of_nat k)) with (2 * (z * 2 ^ Z.of_nat k)) in D by ring. lia.
      * replace (z * (2 * 2 ^ Z.of_nat k)) with (2 * (z * 2 ^ Z.of_nat k)) in D by ring. lia.
Qed.

Definition A : Z := 69069.
Definition C : Z := 1234567.
Definition M : Z := 4294967296.

Lemma cong_Z : forall x, Z.of_N (cong x) = (A * Z.of_N x + C) mod M.
Proof.
  intros. unfold cong, word. rewrite N2Z.inj_mod, N2Z.inj_add, N2Z.inj_mul by discriminate. reflexivity.
Qed.

Lemma cong_iter : forall n x, (x < wide)%N ->
  Z.of_N (Nat.iter n cong x) = (A ^ Z.of_nat n * Z.of_N x + C * geo A n) mod M.
Proof.
  intros n x L. induction n as [|n IH].
  - change (Nat.iter 0 cong x) with x. cbn [geo]. change (Z.of_nat 0) with 0. rewrite Z.pow_0_r. rewrite Z.mod_small; [ring|].
    change M with (Z.of_N wide). lia.
  - change (Nat.iter (S n) cong x) with (cong (Nat.iter n cong x)).
    rewrite cong_Z, IH, Z.add_mod, Zmult_mod_idemp_r, <- Z.add_mod by discriminate.
    cbn [geo]. rewrite Nat2Z.inj_succ, Z.pow_succ_r by lia. f_equal. ring.
Qed.

Lemma cong_fix : forall n x, (x < wide)%N -> (Nat.iter n cong x = x <-> (M | Z.of_nat n)).
Proof.
  intros n x L. assert (LZ : 0 <= Z.of_N x < M) by (change M with (Z.of_N wide); lia).
  assert (MP : M = 2 ^ Z.of_nat 32) by reflexivity.
  assert (AE : A = 1 + 4 * 17267) by reflexivity.
  assert (EQ : A ^ Z.of_nat n * Z.of_N x + C * geo A n - Z.of_N x =
               (1 + 2 * (34534 * Z.of_N x + 617283)) * geo A n).
  { rewrite geo_pow. unfold A at 1, C. ring. }
  rewrite MP, <- (geo_div 17267 32 n), <- AE, <- MP. split.
  - intros E. pose proof (cong_iter n x L) as H. rewrite E in H.
    assert (D : (M | A ^ Z.of_nat n * Z.of_N x + C * geo A n - Z.of_N x)).
    { apply Z.mod_divide; [discriminate|]. rewrite Zminus_mod, <- H.
      rewrite (Z.mod_small (Z.of_N x)) by auto. rewrite Z.sub_diag. reflexivity. }
    rewrite EQ in D. rewrite MP in *. apply div_odd in D; auto. lia.
  - intros D. apply N2Z.inj. rewrite (cong_iter n x L).
    rewrite <- (Z.mod_small (Z.of_N x) M) at 2 by auto.
    assert (D' : (M | A ^ Z.of_nat n * Z.of_N x + C * geo A n - Z.of_N x))
      by (rewrite EQ; apply Z.divide_mul_r; auto).
    destruct D' as (z & D'). 
    replace (A ^ Z.of_nat n * Z.of_N x + C * geo A n) with (Z.of_N x + z * M) by lia.
    apply Z.mod_add. discriminate.
Qed.

Lemma cong_lt : forall x, (cong x < wide)%N.
Proof. intros. apply word_lt. Qed.

Lemma cong_inj : forall x y, (x < wide)%N -> (y < wide)%N -> cong x = cong y -> x = y.
Proof.
  intros x y Lx Ly E. apply (f_equal Z.of_N) in E. rewrite !cong_Z in E.
  assert (LX : 0 <= Z.of_N x < M) by (change M with (Z.of_N wide); lia).
  assert (LY : 0 <= Z.of_N y < M) by (change M with (Z.of_N wide); lia).
  assert (D : (M | (1 + 2 * 34534) * (Z.of_N x - Z.of_N y))).
  { apply Z.mod_divide; [discriminate|].
    replace ((1 + 2 * 34534) * (Z.of_N x - Z.of_N y)) with ((A * Z.of_N x + C) - (A * Z.of_N y + C))
      by (unfold A; ring).
    rewrite Zminus_mod, E, Z.sub_diag. reflexivity. }
  change M with (2 ^ 32) in D. apply div_odd in D; [|lia]. destruct D as (z & D).
  apply N2Z.inj. change (2 ^ 32) with M in D.
  assert (z = 0) by nia. lia.
Qed.

Lemma iter_lt : forall n x, (x < wide)%N -> (Nat.iter n cong x < wide)%N.
Proof. intros [|n] x L; auto. apply cong_lt. Qed.

Lemma iter_inj : forall n x y, (x < wide)%N -> (y < wide)%N ->
  Nat.iter n cong x = Nat.iter n cong y -> x = y.
Proof.
  induction n as [|n IH]; intros x y Lx Ly E; auto. apply IH; auto.
  apply cong_inj; auto; apply iter_lt; auto.
Qed.

Lemma iter_add : forall A (f : A -> A) n m x, Nat.iter (n + m) f x = Nat.iter n f (Nat.iter m f x).
Proof. induction n as [|n IH]; intros; auto. simpl. rewrite IH. auto. Qed.

Lemma cong_period : forall x n m, (x < wide)%N ->
  (Nat.iter n cong x = Nat.iter m cong x <-> (M | Z.of_nat n - Z.of_nat m)).
Proof.
  assert (G : forall x n d, (x < wide)%N ->
    (Nat.iter n cong x = Nat.iter (n + d) cong x <-> (M | Z.of_nat d))).
  { intros x n d L. rewrite iter_add. rewrite <- (cong_fix d x L). split.
    - intros E. symmetry. eapply iter_inj; [| |exact E]; auto. apply iter_lt. auto.
    - intros ->. auto. }
  intros x n m L. destruct (Nat.le_ge_cases n m) as [H|H].
  - replace m with (n + (m - n))%nat by lia. rewrite (G x n (m - n)%nat L).
    replace (Z.of_nat n - Z.of_nat (n + (m - n))) with (- Z.of_nat (m - n)) by lia.
    rewrite Z.divide_opp_r. tauto.
  - replace n with (m + (n - m))%nat by lia.
    replace (Z.of_nat (m + (n - m)) - Z.of_nat m) with (Z.of_nat (n - m)) by lia.
    rewrite <- (G x m (n - m)%nat L). split; auto.
Qed.
