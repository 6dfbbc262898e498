(** What the random number generators promise. *)
From Coq Require Import NArith ZArith List Lia Bool.
From Verif Require Import RnModel RnProof RnMwc.
Import ListNotations.
Local Open Scope N_scope.

(** * C158: the same seeds give the same numbers *)

Definition same (t t' : N -> N) : Prop := forall i, i < 256 -> t i = t' i.

Lemma byte_lt : forall x, byte x < 256.
Proof. intros. apply N.mod_lt. discriminate. Qed.

Lemma fill_same : forall k i s t t',
  fst (fill k i s t) = fst (fill k i s t') /\
  forall j, (i <= j < i + N.of_nat k \/ t j = t' j) ->
    snd (fill k i s t) j = snd (fill k i s t') j.
Proof.
  induction k as [|k IH]; intros i s t t'.
  - simpl. split; auto. intros j [H|H]; auto. lia.
  - cbn [fill]. destruct (IH (i + 1) (simple_next s)
      (tput t i (simple_out (simple_next s))) (tput t' i (simple_out (simple_next s)))) as (E & H).
    split; auto. intros j J. apply H. unfold tput. destruct (N.eqb_spec j i); auto.
    destruct J; auto. left. lia.
Qed.

Local Opaque fill.

Lemma seed_simple : forall l s s', simple_seed l s = simple_seed l s'.
Proof. intros. reflexivity. Qed.

Lemma tput_same : forall t t' i v, same t t' -> same (tput t i v) (tput t' i v).
Proof. intros t t' i v H j J. unfold tput. destruct (j =? i); auto. Qed.

Definition swb_same (s s' : swb) : Prop :=
  b_c s = b_c s' /\ same (b_t s) (b_t s') /\ b_x s = b_x s' /\ b_y s = b_y s'.

Lemma swb_next_same : forall s s', swb_same s s' ->
  snd (swb_next s) = snd (swb_next s') /\ swb_same (fst (swb_next s)) (fst (swb_next s')).
Proof.
  intros s s' (C & T & X & Y). unfold swb_next. cbn [fst snd]. rewrite C, Y.
  rewrite !(T (byte _)) by apply byte_lt. split; auto.
  repeat split; auto. cbn [b_t]. apply tput_same. auto.
Qed.

Lemma swb_seed_same : forall l s s', swb_same (swb_seed l s) (swb_seed l s').
Proof.
  intros l s s'. unfold swb_seed. rewrite (seed_simple l (b_seeder s') (b_seeder s)).
  destruct (fill_same 256 0 (simple_seed l (b_seeder s)) (b_t s) (b_t s')) as (E & H).
  destruct (fill 256 0 _ (b_t s)) as [g t]. destruct (fill 256 0 _ (b_t s')) as [g' t'].
  repeat split; auto. intros i L. apply H. left. lia.
Qed.

Definition lfib_same (s s' : lfib) : Prop := f_c s = f_c s' /\ same (f_t s) (f_t s').

Lemma lfib_next_same : forall s s', lfib_same s s' ->
  snd (lfib_next s) = snd (lfib_next s') /\ lfib_same (fst (lfib_next s)) (fst (lfib_next s')).
Proof.
  intros s s' (C & T). unfold lfib_next. cbn [fst snd]. rewrite C.
  rewrite !(T (byte _)) by apply byte_lt. split; auto.
  split; auto. cbn [f_t]. apply tput_same. auto.
Qed.

Lemma values_same : forall S (next : S -> S * N) (R : S -> S -> Prop),
  (forall s s', R s s' -> snd (next s) = snd (next s') /\ R (fst (next s)) (fst (next s'))) ->
  forall k s s', R s s' -> values next k s = values next k s'.
Proof.
  intros S next R H. induction k as [|k IH]; intros s s' X; auto. cbn [values].
  destruct (H s s' X) as (E & X'). destruct (next s) as [s1 v1]. destruct (next s') as [s2 v2].
  cbn [fst snd] in *. subst. f_equal. auto.
Qed.

(** Whatever a generator has done before, after seeding it gives the numbers
    that belong to the seeds. *)
Theorem reseed_restarts : forall l k,
  (forall s s', values (plain mwc_next mwc_out) k (mwc_seed l s) =
                values (plain mwc_next mwc_out) k (mwc_seed l s')) /\
  (forall s s', values (plain shr3 (fun x => x)) k (shr3_seed l s) =
                values (plain shr3 (fun x => x)) k (shr3_seed l s')) /\
  (forall s s', values (plain cong (fun x => x)) k (cong_seed l s) =
                values (plain cong (fun x => x)) k (cong_seed l s')) /\
  (forall s s', values (plain simple_next simple_out) k (simple_seed l s) =
                values (plain simple_next simple_out) k (simple_seed l s')) /\
  (forall s s', values swb_next k (swb_seed l s) = values swb_next k (swb_seed l s')) /\
  (forall s s', values lfib_next k (lfib_seed l s) = values lfib_next k (lfib_seed l s')) /\
  (forall s s', values combo_next k (combo_seed l s) = values combo_next k (combo_seed l s')).
Proof.
  intros l k. split; [reflexivity|]. split; [reflexivity|]. split; [reflexivity|]. split; [reflexivity|].
  split; [|split]; intros s s'.
  - apply (values_same _ _ swb_same swb_next_same), swb_seed_same.
  - apply (values_same _ _ lfib_same lfib_next_same). unfold lfib_seed.
    rewrite (seed_simple l (f_seeder s') (f_seeder s)).
    destruct (fill_same 256 0 (simple_seed l (f_seeder s)) (f_t s) (f_t s')) as (E & H).
    destruct (fill 256 0 _ (f_t s)) as [g t]. destruct (fill 256 0 _ (f_t s')) as [g' t'].
    split; auto. intros i L. apply H. left. lia.
  - apply (values_same _ _ (fun a b => swb_same (k_swb a) (k_swb b) /\ k_simple a = k_simple b)).
    + intros a b (H & E). unfold combo_next. destruct (swb_next_same _ _ H) as (V & H').
      destruct (swb_next (k_swb a)) as [b1 v1]. destruct (swb_next (k_swb b)) as [b2 v2].
      cbn [fst snd] in *. subst. rewrite E. auto.
    + unfold combo_seed. cbn [k_swb k_simple]. split; [apply swb_seed_same|].
      rewrite (seed_simple _ (k_simple s) (k_simple s')). auto.
Qed.
Print Assumptions reseed_restarts.

(** * C159: the sequences are the documented ones *)

(** CONG has period 2^32, whatever its seed. *)
Theorem cong_full_period : forall x n m, x < 2 ^ 32 ->
  (Nat.iter n cong x = Nat.iter m cong x <-> (N.of_nat n) mod 2 ^ 32 = (N.of_nat m) mod 2 ^ 32).
Proof.
  intros x n m L. rewrite (cong_period x n m L). change M with (Z.of_N (2 ^ 32)).
  rewrite <- !nat_N_Z. split; intros H.
  - apply N2Z.inj. rewrite !N2Z.inj_mod by discriminate.
    destruct H as (z & H). replace (Z.of_N (N.of_nat n)) with (Z.of_N (N.of_nat m) + z * Z.of_N (2 ^ 32))%Z by lia.
    apply Z.mod_add. discriminate.
  - apply (f_equal Z.of_N) in H. rewrite !N2Z.inj_mod in H by discriminate.
    apply Z.mod_divide; [discriminate|]. rewrite Zminus_mod, H, Z.sub_diag. reflexivity.
Qed.
Print Assumptions cong_full_period.

(** MWC has period (36969 * 2^15 - 1) * (18000 * 2^15 - 1), a little under 2^60,
    from all seeds below the two moduli but zero. *)
Theorem mwc_full_period : forall z w n m,
  0 < z < 36969 * 2 ^ 16 - 1 -> 0 < w < 18000 * 2 ^ 16 - 1 ->
  let period := (36969 * 2 ^ 15 - 1) * (18000 * 2 ^ 15 - 1) in
  2 ^ 59 < period < 2 ^ 60 /\
  (Nat.iter n mwc_next (z, w) = Nat.iter m mwc_next (z, w) <->
   (N.of_nat n) mod period = (N.of_nat m) mod period).
Proof.
  intros z w n m Hz Hw period. split; [split; reflexivity|].
  change (36969 * 2 ^ 16 - 1) with 2422800383 in Hz. change (18000 * 2 ^ 16 - 1) with 1179647999 in Hw.
  rewrite (mwc_period_Z z w n m) by (unfold P1, P2; lia).
  change (Q1 * Q2)%Z with (Z.of_N period). assert (NZ : period <> 0) by discriminate.
  rewrite <- !nat_N_Z. split; intros H.
  - apply N2Z.inj. rewrite !N2Z.inj_mod by auto.
    destruct H as (k & H). replace (Z.of_N (N.of_nat n)) with (Z.of_N (N.of_nat m) + k * Z.of_N period)%Z by lia.
    apply Z.mod_add. discriminate.
  - apply (f_equal Z.of_N) in H. rewrite !N2Z.inj_mod in H by auto.
    apply Z.mod_divide; [discriminate|]. rewrite Zminus_mod, H, Z.sub_diag. reflexivity.
Qed.
Print Assumptions mwc_full_period.

(** From other seeds it may stand still: zero, and the moduli themselves. *)
Theorem mwc_other_seeds_refuted : exists z w, 0 < z < 2 ^ 32 /\ 0 < w < 2 ^ 32 /\
  mwc_next (mwc_seed [z; w] (0, 0)) = mwc_seed [z; w] (0, 0).
Proof.
  exists (36969 * 2 ^ 16 - 1), (18000 * 2 ^ 16 - 1).
  split; [split; reflexivity|]. split; [split; reflexivity|]. vm_compute. reflexivity.
Qed.
Print Assumptions mwc_other_seeds_refuted.

Example mwc_example : let s := mwc_seed [] (0, 0) in
  0 < fst s < 36969 * 2 ^ 16 - 1 /\ 0 < snd s < 18000 * 2 ^ 16 - 1 /\ mwc_next s <> s.
Proof. split; [split; reflexivity|]. split; [split; reflexivity|]. vm_compute. discriminate. Qed.

(** SHR3 never maps two words to one, so it comes back to its seed and is never
    caught in a cycle it did not start in; it reaches zero only from zero. *)
Theorem shr3_permutes_partial : forall x y, x < 2 ^ 32 -> y < 2 ^ 32 ->
  shr3 x < 2 ^ 32 /\ (shr3 x = shr3 y -> x = y) /\ (shr3 x = 0 -> x = 0).
Proof.
  intros x y Lx Ly. split; [apply shr3_lt; auto|]. split.
  - apply shr3_inj; auto.
  - intros E. apply shr3_inj; auto. reflexivity.
Qed.
Print Assumptions shr3_permutes_partial.

(** Its period is not 2^32 - 1: from one seed other than zero it gives the same
    number for ever. *)
Theorem shr3_period_refuted : exists x, 0 < x < 2 ^ 32 /\
  forall k, values (plain shr3 (fun v => v)) k (shr3_seed [x] 0) = repeat x k.
Proof.
  exists 2929859471. split; [split; reflexivity|]. intros k.
  change (shr3_seed [2929859471] 0) with 2929859471.
  induction k as [|k IH]; auto. cbn [values plain repeat].
  assert (F : shr3 2929859471 = 2929859471) by (vm_compute; reflexivity).
  unfold plain at 1. rewrite F. f_equal. exact IH.
Qed.
Print Assumptions shr3_period_refuted.

(** The n-th value and the state before it. *)
Definition state_at {S} (next : S -> S * N) (s : S) (n : nat) : S := Nat.iter n (fun s => fst (next s)) s.
Definition value_at {S} (next : S -> S * N) (s : S) (n : nat) : N := snd (next (state_at next s n)).

Lemma state_S : forall S (next : S -> S * N) s n,
  state_at next s (Datatypes.S n) = fst (next (state_at next s n)).
Proof. reflexivity. Qed.

Lemma byte_add : forall a b, byte (byte a + b) = byte (a + b).
Proof. intros. unfold byte. rewrite N.add_mod_idemp_l; auto. discriminate. Qed.

(** A ring of 256 places that is written one place further every time. *)
Lemma ring_buffer : forall (T : nat -> N -> N) (V : nat -> N) c,
  (forall n j, T (S n) j = tput (T n) (byte (c + N.of_nat n)) (V n) j) ->
  forall n m, (m < n <= m + 256)%nat -> T n (byte (c + N.of_nat m)) = V m.
Proof.
  intros T V c H. induction n as [|n IH]; intros m L; [lia|].
  rewrite H. unfold tput. destruct (N.eqb_spec (byte (c + N.of_nat m)) (byte (c + N.of_nat n))) as [E|E].
  - assert (m = n); [|subst; auto]. unfold byte in E.
    destruct (Nat.eq_dec m n) as [|NE]; auto. exfalso.
    pose proof (N.div_mod (c + N.of_nat m) 256 ltac:(discriminate)).
    pose proof (N.div_mod (c + N.of_nat n) 256 ltac:(discriminate)).
    rewrite E in H0. 
    generalize dependent ((c + N.of_nat n) mod 256). generalize ((c + N.of_nat m) / 256).
    generalize ((c + N.of_nat n) / 256). intros. lia.
  - apply IH. assert (m <> n) by (intro; subst; auto). lia.
Qed.

Lemma swb_c : forall s n, b_c s < 256 ->
  b_c (state_at swb_next s n) = byte (b_c s + N.of_nat n).
Proof.
  intros s n L. induction n as [|n IH].
  - change (state_at swb_next s 0) with s. unfold byte. rewrite N.add_0_r, N.mod_small; auto.
  - rewrite state_S. unfold swb_next at 1. cbn [fst b_c]. rewrite IH, byte_add. f_equal. lia.
Qed.

Lemma swb_write : forall s,
  b_t (fst (swb_next s)) = tput (b_t s) (byte (b_c s + 237)) (snd (swb_next s)).
Proof. reflexivity. Qed.

Lemma swb_ring : forall s n m, b_c s < 256 -> (m < n <= m + 256)%nat ->
  b_t (state_at swb_next s n) (byte (b_c s + 237 + N.of_nat m)) = value_at swb_next s m.
Proof.
  intros s n m L H.
  apply (ring_buffer (fun n => b_t (state_at swb_next s n)) (value_at swb_next s) (b_c s + 237)); auto.
  intros k j. cbv beta. rewrite state_S, swb_write, swb_c by auto. rewrite byte_add.
  replace (b_c s + N.of_nat k + 237) with (b_c s + 237 + N.of_nat k) by lia. reflexivity.
Qed.

(** SWB: what each number is made of. *)
Theorem swb_recurrence_partial : forall s n, b_c s < 256 -> (237 <= n)%nat ->
  let v := value_at swb_next s in
  v n = word (v (n - 222)%nat + 2 * wide -
              (v (n - 236)%nat + if v (n - 222)%nat <? v (n - 237)%nat then 1 else 0)).
Proof.
  intros s n L H v.
  assert (X : b_t (state_at swb_next s n) (byte (b_c (state_at swb_next s n) + 15)) = v (n - 222)%nat).
  { unfold v. rewrite <- (swb_ring s n (n - 222) L) by lia. f_equal. rewrite swb_c, byte_add by auto.
    unfold byte. replace (b_c s + 237 + N.of_nat (n - 222)) with (b_c s + N.of_nat n + 15) by lia. auto. }
  assert (Y : forall k, (236 <= k)%nat ->
    b_t (state_at swb_next s k) (byte (b_c (state_at swb_next s k) + 1)) = v (k - 236)%nat).
  { intros k K. unfold v. rewrite <- (swb_ring s k (k - 236) L) by lia. f_equal. rewrite swb_c, byte_add by auto.
    unfold byte. replace (b_c s + 237 + N.of_nat (k - 236)) with (b_c s + N.of_nat k + 1) by lia. auto. }
  assert (O : b_y (state_at swb_next s n) = v (n - 237)%nat).
  { destruct n as [|n]; [lia|]. rewrite state_S. unfold swb_next at 1. cbn [fst b_y].
    rewrite (Y n) by lia. f_equal. }
  unfold v at 1, value_at. unfold swb_next at 1. cbn [snd].
  rewrite X, (Y n), O by lia. reflexivity.
Qed.
Print Assumptions swb_recurrence_partial.

Lemma lfib_c : forall s n, f_c s < 256 ->
  f_c (state_at lfib_next s n) = byte (f_c s + N.of_nat n).
Proof.
  intros s n L. induction n as [|n IH].
  - change (state_at lfib_next s 0) with s. unfold byte. rewrite N.add_0_r, N.mod_small; auto.
  - rewrite state_S. unfold lfib_next at 1. cbn [fst f_c]. rewrite IH, byte_add. f_equal. lia.
Qed.

Lemma lfib_write : forall s,
  f_t (fst (lfib_next s)) = tput (f_t s) (byte (f_c s)) (snd (lfib_next s)).
Proof. reflexivity. Qed.

Lemma lfib_ring : forall s n m, f_c s < 256 -> (m < n <= m + 256)%nat ->
  f_t (state_at lfib_next s n) (byte (f_c s + N.of_nat m)) = value_at lfib_next s m.
Proof.
  intros s n m L H.
  apply (ring_buffer (fun n => f_t (state_at lfib_next s n)) (value_at lfib_next s) (f_c s)); auto.
  intros k j. cbv beta. rewrite state_S, lfib_write, lfib_c by auto.
  replace (byte (byte (f_c s + N.of_nat k))) with (byte (f_c s + N.of_nat k)); [reflexivity|].
  unfold byte. rewrite N.mod_mod; auto. discriminate.
Qed.

(** LFIB4: the sum of four earlier numbers. *)
Theorem lfib4_recurrence_partial : forall s n, f_c s < 256 -> (256 <= n)%nat ->
  let v := value_at lfib_next s in
  v n = word (v (n - 256)%nat + v (n - 198)%nat + v (n - 137)%nat + v (n - 77)%nat).
Proof.
  intros s n L H v.
  assert (X : forall k d, (k < 256)%nat -> (d = 256 - k)%nat ->
    f_t (state_at lfib_next s n) (byte (f_c (state_at lfib_next s n) + N.of_nat k)) = v (n - d)%nat).
  { intros k d K ->. unfold v. rewrite <- (lfib_ring s n (n - (256 - k)) L) by lia. f_equal.
    rewrite lfib_c, byte_add by auto. unfold byte.
    replace (f_c s + N.of_nat n + N.of_nat k) with (f_c s + N.of_nat (n - (256 - k)) + 1 * 256) by lia.
    apply N.mod_add. discriminate. }
  unfold v at 1, value_at. unfold lfib_next at 1. cbn [snd].
  pose proof (X 0%nat 256%nat ltac:(lia) ltac:(lia)) as X0. change (N.of_nat 0) with 0 in X0. rewrite N.add_0_r in X0.
  pose proof (X 58%nat 198%nat ltac:(lia) ltac:(lia)) as X1.
  pose proof (X 119%nat 137%nat ltac:(lia) ltac:(lia)) as X2.
  pose proof (X 179%nat 77%nat ltac:(lia) ltac:(lia)) as X3.
  change (N.of_nat 58) with 58 in X1. change (N.of_nat 119) with 119 in X2. change (N.of_nat 179) with 179 in X3.
  rewrite <- (N.add_assoc (f_c (state_at lfib_next s n)) 1 178). change (1 + 178) with 179. rewrite X0, X1, X2, X3. reflexivity.
Qed.
Print Assumptions lfib4_recurrence_partial.

Local Transparent fill.

Definition simple0 : simple := Simple (0, 0) 0 0.
Definition swb0 : swb := swb_seed [] (Swb 0 (fun _ => 0) 0 0 simple0).
Definition lfib0 : lfib := lfib_seed [] (Lfib 0 (fun _ => 0) simple0).

(** Neither is the documented one: x(n) = x(n-222) - x(n-237) - borrow, *)
Theorem swb_documented_refuted : exists n, (237 <= n)%nat /\
  let l := values swb_next (S n) swb0 in
  let v i := nth i l 0 in
  forall borrow, borrow = 0 \/ borrow = 1 ->
  v n <> word (v (n - 222)%nat + 2 * wide - (v (n - 237)%nat + borrow)).
Proof.
  exists 240%nat. split; [lia|]. intros l v.
  intros b [-> | ->]; unfold v, l; vm_compute; discriminate.
Qed.
Print Assumptions swb_documented_refuted.

(** and x(n) = x(n-256) + x(n-179) + x(n-119) + x(n-55). *)
Theorem lfib4_documented_refuted : exists n, (256 <= n)%nat /\
  let l := values lfib_next (S n) lfib0 in
  let v i := nth i l 0 in
  v n <> word (v (n - 256)%nat + v (n - 179)%nat + v (n - 119)%nat + v (n - 55)%nat).
Proof.
  exists 260%nat. split; [lia|]. intros l v. unfold v, l. vm_compute. discriminate.
Qed.
Print Assumptions lfib4_documented_refuted.

Example swb_example : (237 <= 240)%nat /\ b_c swb0 < 256 /\
  nth 240 (values swb_next 241 swb0) 0 <> nth 18 (values swb_next 241 swb0) 0.
Proof. split; [lia|]. split; [reflexivity|]. vm_compute. discriminate. Qed.

Example combo_example :
  values combo_next 2 (combo_seed [1; 2; 3] (Combo swb0 simple0)) <>
  values combo_next 2 (combo_seed [1; 2; 4] (Combo swb0 simple0)).
Proof. vm_compute. discriminate. Qed.

Example cong_example : 1 < 2 ^ 32 /\ Nat.iter 2 cong 1 = 4142723531 /\ Nat.iter 3 cong 1 <> Nat.iter 5 cong 1.
Proof. split; [reflexivity|]. split; [vm_compute; reflexivity|vm_compute; discriminate]. Qed.
