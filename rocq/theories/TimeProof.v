From Coq Require Import NArith ZArith Bool Lia.
From Coq Require Import ZifyBool ZifyN.
From Verif Require Import TimeModel TimeSpec.
Ltac Zify.zify_post_hook ::= Z.div_mod_to_equations.
Local Open Scope N_scope.

Lemma land_ones x : N.land x remainder_bits_mask = u64 x.
Proof. unfold remainder_bits_mask, u64, two64. change 18446744073709551615 with (N.ones 64). rewrite N.land_ones. reflexivity. Qed.

Lemma ts_add_val t a : wf t -> ts_add t a = Ts (epochs t) (u64 (ticks t + a)).
Proof.
  intros [H1 H2]. unfold ts_add. rewrite land_ones. unfold carry_bits_mask. rewrite N.land_0_r.
  unfold carry_bits_shift. change (N.shiftl 0 0) with 0. f_equal.
  - unfold add64, u64, two64 in *. change (0 mod 18446744073709551616) with 0. rewrite N.add_0_l. now rewrite N.mod_small.
  - unfold add64, u64, two64 in *. rewrite N.mod_mod; lia.
Qed.

Lemma add_sub t a : wf t -> a < two64 -> ticks t + a < two64 -> 0 < ticks t -> ts_sub (ts_add t a) a = t.
Proof.
  intros Hw Ha Hs Hp. rewrite ts_add_val by auto. destruct Hw as [H1 H2].
  unfold ts_sub, sub64, u64, two64 in *. cbn [ticks epochs].
  rewrite (N.mod_small (ticks t + a)) by auto.
  replace (a <? ticks t + a) with true by lia. destruct t as [e k]; cbn [ticks epochs] in *. f_equal.
  rewrite (N.mod_small a) by lia. lia.
Qed.

Lemma add_assoc t a b : wf t -> ts_add (ts_add t a) b = ts_add t (add64 a b).
Proof.
  intros Hw. rewrite (ts_add_val t a), (ts_add_val t (add64 a b)) by auto. rewrite ts_add_val.
  - cbn [ticks epochs]. f_equal. unfold add64, u64, two64. lia.
  - destruct Hw. split; cbn [ticks epochs]; auto. unfold u64, two64. lia.
Qed.

Lemma add_mono t a : wf t -> ticks t + a < two64 ->
  ts_ge (ts_add t a) t = true /\ instant (ts_add t a) = instant t + a /\ wf (ts_add t a).
Proof.
  intros Hw Hs. rewrite ts_add_val by auto. destruct Hw as [H1 H2]. unfold u64, two64 in *.
  rewrite N.mod_small by auto. unfold ts_ge, instant, wf, two64. cbn [ticks epochs]. rewrite N.eqb_refl. repeat split; auto; lia.
Qed.

Lemma add_ts_val a b : wf a -> wf b -> ticks a + ticks b < two64 -> epochs a + epochs b < two64 ->
  instant (ts_add_ts a b) = instant a + instant b.
Proof.
  intros Ha Hb H1 H2. unfold ts_add_ts. rewrite ts_add_val by auto. unfold instant. cbn [ticks epochs].
  unfold add64, u64, two64 in *. rewrite !N.mod_small by lia. lia.
Qed.

Lemma sub64_val x y : y <= x -> x < two64 -> sub64 x y = x - y.
Proof.
  intros H1 H2. unfold sub64, u64, two64 in *. rewrite (N.mod_small y) by lia.
  replace (x + (18446744073709551616 - y)) with ((x - y) + 1 * 18446744073709551616) by lia.
  rewrite N.mod_add by discriminate. apply N.mod_small. lia.
Qed.

Lemma diff_val a b d : wf a -> wf b -> ts_diff a b = Some d -> instant b <= instant a -> instant a = instant b + d.
Proof.
  intros [H1 H2] [H3 H4]. unfold ts_diff, instant.
  destruct (N.eqb_spec (epochs a) (epochs b)) as [E|E]; [|discriminate]. intros H Hi.
  rewrite sub64_val in H by (try assumption; unfold two64 in *; lia).
  assert (d = ticks a - ticks b) by congruence. unfold two64 in *. lia.
Qed.

Lemma sub_val t d : wf t -> d < ticks t -> instant (ts_sub t d) + d = instant t.
Proof.
  intros [H1 H2] H. unfold ts_sub. replace (d <? ticks t) with true by lia.
  unfold instant. cbn [ticks epochs]. rewrite sub64_val by lia. unfold two64 in *. lia.
Qed.

Lemma cmp_sound a b : wf a -> wf b ->
  (ts_lt a b = true <-> instant a < instant b) /\
  (ts_gt a b = true <-> instant b < instant a) /\
  (ts_ge a b = true <-> instant b <= instant a) /\
  (ts_eq a b = true <-> instant a = instant b) /\
  (ts_ne a b = true <-> instant a <> instant b).
Proof.
  intros [H1 H2] [H3 H4]. unfold ts_lt, ts_gt, ts_ge, ts_eq, ts_ne, ts_lt, instant, two64 in *.
  rewrite (N.eqb_sym (epochs b)).
  destruct (N.eqb_spec (epochs a) (epochs b)) as [E|E]; cbn [ticks epochs]; repeat split; intros; try lia.
Qed.

Lemma le_same_epoch a b : wf a -> wf b -> epochs a = epochs b -> (ts_le a b = true <-> instant a <= instant b).
Proof.
  intros [H1 H2] [H3 H4] E. unfold ts_le, instant, two64 in *. rewrite E, N.eqb_refl. split; lia.
Qed.

Lemma divide_up_val num denom q : num < two32 -> denom < two32 -> divide_up num denom = Some q ->
  num <= q * denom /\ forall k, num <= k * denom -> q <= k.
Proof.
  intros Hn Hd. unfold divide_up, u32, two32 in *. rewrite !N.mod_small with (a := num), !N.mod_small with (a := denom) by auto.
  destruct (denom =? 0) eqn:E; [discriminate|]. intros H. injection H as <-.
  assert (Hd0 : denom <> 0) by lia.
  pose proof (N.div_mod' num denom) as Hdm. pose proof (N.mod_lt num denom Hd0) as Hlt.
  assert (Hq : num / denom <= num) by (apply N.div_le_upper_bound; [auto|nia]).
  destruct (N.eqb_spec (num mod denom) 0) as [Hz|Hz].
  - split; [nia|]. intros k Hk. apply N.div_le_upper_bound; nia.
  - assert (num / denom + 1 < 4294967296).
    { assert (num / denom < num) by (destruct (N.eq_dec denom 1) as [->|]; [rewrite N.mod_1_r in Hz; congruence|nia]). lia. }
    rewrite N.mod_small by auto. split; [nia|]. intros k Hk.
    assert (num / denom < k); [|lia]. apply N.nle_gt. intros Hle. nia.
Qed.

Lemma init_exact s : 0 < s -> 1000 mod s = 0 -> one_s (init_stamps s) * s = 1000000000000000000.
Proof.
  intros Hs Hm.
  assert (Hf : (1000 / s) * s = 1000) by (pose proof (N.div_mod' 1000 s); lia).
  assert (Hle : 1000 / s <= 1000) by nia.
  unfold init_stamps, one_s, u64, two64. remember (1000 / s) as q eqn:E.
  rewrite (N.mod_small (1000 * q)) by lia.
  rewrite (N.mod_small (1000 * (1000 * q))) by lia.
  rewrite (N.mod_small (1000 * (1000 * (1000 * q)))) by lia.
  rewrite (N.mod_small (1000 * (1000 * (1000 * (1000 * q))))) by lia.
  rewrite (N.mod_small (1000 * (1000 * (1000 * (1000 * (1000 * q)))))) by lia.
  nia.
Qed.
