(** Bruck alltoall: the lockstep run. *)
From Coq Require Import List Arith Lia Bool.
From Verif Require Import RdModel RdProof AgModel AgProof AaModel.
Import ListNotations.

(** The main-buffer block that goes to temporary block [t]. *)
Definition blk (g t : nat) : nat := 2 * g * (t / g) + g + t mod g.

Lemma blk_bounds : forall g j t, 0 < g -> j * g <= t < j * g + g -> blk g t = 2 * g * j + g + (t - j * g).
Proof.
  intros g j t Hg Ht. unfold blk.
  assert (Hd : t / g = j).
  { symmetry. apply (Nat.div_unique t g j (t - j * g)); lia. }
  assert (Hmd : t mod g = t - j * g).
  { symmetry. apply (Nat.mod_unique t g j (t - j * g)); lia. }
  rewrite Hd, Hmd. reflexivity.
Qed.

Lemma blk_lt : forall g n t, 0 < g -> g <= n -> (t < num_send_blocks n g <-> blk g t < n).
Proof.
  intros g n t Hg Hgn. unfold num_send_blocks, blk.
  pose proof (Nat.div_mod t g ltac:(lia)) as Ht. pose proof (Nat.mod_upper_bound t g ltac:(lia)) as Hy.
  pose proof (Nat.div_mod (n - g) (g * 2) ltac:(lia)) as Hw.
  pose proof (Nat.mod_upper_bound (n - g) (g * 2) ltac:(lia)) as Hb.
  set (x := t / g) in *. set (y := t mod g) in *.
  set (a := (n - g) / (g * 2)) in *. set (b := (n - g) mod (g * 2)) in *.
  destruct (lt_eq_lt_dec x a) as [[H|H]|H].
  - assert (g * S x <= g * a) by (apply Nat.mul_le_mono_l; lia).
    rewrite Nat.mul_succ_r in H0. split; intros _; lia.
  - rewrite H in *. split; intros; lia.
  - assert (g * S a <= g * x) by (apply Nat.mul_le_mono_l; lia).
    rewrite Nat.mul_succ_r in H0. split; intros; lia.
Qed.

Lemma idx_lt : forall ne a b e, a < b -> e < ne -> a * ne + e < b * ne.
Proof.
  intros ne a b e Ha He. assert (Hm : S a * ne <= b * ne) by (apply Nat.mul_le_mono_r; lia).
  cbn [Nat.mul] in Hm. lia.
Qed.

Section Shuffle.
Context {T : Type}.
Variables (n ne g : nat).
Hypothesis Hg : 0 < g.

Lemma shuffle_to_spec : forall f j (res snd : nat -> T),
  n <= 2 * g * j + g + f ->
  forall i,
  (i < j * g * ne -> shuffle_to f n ne g (2 * g * j + g) (j * g) res snd i = snd i) /\
  (forall t e, i = t * ne + e -> e < ne -> j * g <= t -> blk g t < n ->
     shuffle_to f n ne g (2 * g * j + g) (j * g) res snd i = res (blk g t * ne + e)).
Proof.
  induction f as [|f IH]; intros j res snd Hf i; cbn [shuffle_to].
  - split; [reflexivity|]. intros t e Hi He Ht Hb. exfalso.
    assert (2 * g * j + g <= blk g t).
    { unfold blk. assert (g * j <= g * (t / g)); [|lia]. apply Nat.mul_le_mono_l.
      apply Nat.div_le_lower_bound; lia. }
    lia.
  - destruct (Nat.ltb_spec (2 * g * j + g) n) as [Hlt|Hge].
    + replace (2 * g * j + g + g * 2) with (2 * g * S j + g) by lia.
      replace (j * g + g) with (S j * g) by lia.
      set (k := Nat.min g (n - (2 * g * j + g))).
      specialize (IH (S j) res
        (bwrite snd (j * g * ne) (bread res ((2 * g * j + g) * ne) (k * ne))) ltac:(lia) i).
      destruct IH as (I1 & I2). split.
      * intros Hi. rewrite I1.
        -- apply bwrite_out. left. exact Hi.
        -- assert (j * g * ne <= S j * g * ne) by (apply Nat.mul_le_mono_r; lia). lia.
      * intros t e Hi He Ht Hb. destruct (le_dec (S j * g) t) as [Hbig|Hsm].
        { apply (I2 t e Hi He Hbig Hb). }
        rewrite (blk_bounds g j t Hg) in Hb by lia.
        rewrite (blk_bounds g j t Hg) by lia.
        assert (Htk : t - j * g < k) by (unfold k; lia).
        assert (Hi2 : t * ne = j * g * ne + (t - j * g) * ne)
          by (rewrite <- Nat.mul_add_distr_r; f_equal; lia).
        pose proof (idx_lt ne (t - j * g) k e Htk He) as Hin.
        rewrite I1.
        { set (d := t - j * g) in *. set (dn := d * ne) in *. set (jn := j * g * ne) in *.
          rewrite (bwrite_in _ _ _ _ (res 0)) by (rewrite bread_length; lia).
          rewrite nth_bread by lia. f_equal.
          rewrite (Nat.mul_add_distr_r (2 * g * j + g)). fold dn. lia. }
        rewrite Hi. apply idx_lt; lia.
    + split; [reflexivity|]. intros t e Hi He Ht Hb. exfalso.
      assert (2 * g * j + g <= blk g t).
      { unfold blk. assert (g * j <= g * (t / g)); [|lia]. apply Nat.mul_le_mono_l.
        apply Nat.div_le_lower_bound; lia. }
      lia.
Qed.

(** Blocks below the current position and blocks of the even groups keep their
    contents, the others come from the temporary buffer. *)
Lemma shuffle_from_spec : forall f j (rcv res : nat -> T),
  n <= 2 * g * j + g + f ->
  (forall b e, e < ne -> (forall t, j * g <= t -> blk g t < n -> b <> blk g t) ->
     shuffle_from f n ne g (2 * g * j + g) (j * g) rcv res (b * ne + e) = res (b * ne + e)) /\
  (forall t e, e < ne -> j * g <= t -> blk g t < n ->
     shuffle_from f n ne g (2 * g * j + g) (j * g) rcv res (blk g t * ne + e) = rcv (t * ne + e)).
Proof.
  induction f as [|f IH]; intros j rcv res Hf; cbn [shuffle_from].
  - split; [reflexivity|]. intros t e He Ht Hb. exfalso.
    assert (2 * g * j + g <= blk g t).
    { unfold blk. assert (g * j <= g * (t / g)); [|lia]. apply Nat.mul_le_mono_l.
      apply Nat.div_le_lower_bound; lia. }
    lia.
  - destruct (Nat.ltb_spec (2 * g * j + g) n) as [Hlt|Hge].
    + replace (2 * g * j + g + g * 2) with (2 * g * S j + g) by lia.
      replace (j * g + g) with (S j * g) by lia.
      set (k := Nat.min g (n - (2 * g * j + g))).
      specialize (IH (S j) rcv
        (bwrite res ((2 * g * j + g) * ne) (bread rcv (j * g * ne) (k * ne))) ltac:(lia)).
      destruct IH as (I1 & I2).
      assert (Hout : forall b e, e < ne -> b < 2 * g * j + g \/ 2 * g * j + g + k <= b ->
        bwrite res ((2 * g * j + g) * ne) (bread rcv (j * g * ne) (k * ne)) (b * ne + e) = res (b * ne + e)).
      { intros b e He [Hb|Hb]; apply bwrite_out; rewrite bread_length.
        - left. apply idx_lt; assumption.
        - right. rewrite <- Nat.mul_add_distr_r.
          assert ((2 * g * j + g + k) * ne <= b * ne) by (apply Nat.mul_le_mono_r; lia). lia. }
      split.
      * intros b e He Hb. rewrite I1.
        -- apply Hout; [exact He|].
           destruct (lt_dec b (2 * g * j + g)) as [H1|H1]; [left; exact H1|].
           destruct (le_dec (2 * g * j + g + k) b) as [H2|H2]; [right; exact H2|].
           exfalso. apply (Hb (j * g + (b - (2 * g * j + g)))); [lia| |].
           ++ rewrite (blk_bounds g j) by (unfold k in H2; lia). unfold k in H2; lia.
           ++ rewrite (blk_bounds g j) by (unfold k in H2; lia). lia.
        -- exact He.
        -- intros t Ht Hbt. apply Hb; [lia|exact Hbt].
      * intros t e He Ht Hb. destruct (le_dec (S j * g) t) as [Hbig|Hsm].
        { apply (I2 t e He Hbig Hb). }
        assert (Hbe : blk g t = 2 * g * j + g + (t - j * g)) by (apply blk_bounds; [exact Hg|lia]).
        rewrite I1; [|exact He|].
        -- rewrite Hbe in *.
           assert (Htk : t - j * g < k) by (unfold k; lia).
           pose proof (idx_lt ne (t - j * g) k e Htk He) as Hin.
           assert (Hi2 : t * ne = j * g * ne + (t - j * g) * ne)
             by (rewrite <- Nat.mul_add_distr_r; f_equal; lia).
           rewrite (Nat.mul_add_distr_r (2 * g * j + g)).
           set (d := t - j * g) in *. set (dn := d * ne) in *. set (jn := j * g * ne) in *.
           rewrite (bwrite_in _ _ _ _ (res 0)) by (rewrite bread_length; lia).
           rewrite nth_bread by lia. f_equal. lia.
        -- intros t' Ht' Hb' He'. rewrite Hbe in He'.
           assert (2 * g * S j + g <= blk g t').
           { unfold blk. assert (g * S j <= g * (t' / g)); [|lia]. apply Nat.mul_le_mono_l.
             apply Nat.div_le_lower_bound; lia. }
           lia.
    + split; [reflexivity|]. intros t e He Ht Hb. exfalso.
      assert (2 * g * j + g <= blk g t).
      { unfold blk. assert (g * j <= g * (t / g)); [|lia]. apply Nat.mul_le_mono_l.
        apply Nat.div_le_lower_bound; lia. }
      lia.
Qed.
End Shuffle.

Lemma aa_gap_pow : forall r, aa_gap r = 2 ^ r.
Proof. induction r as [|r IH]; [reflexivity|]. cbn [aa_gap Nat.pow]. lia. Qed.

Lemma aa_rounds_eq : forall n, 0 < n -> aa_rounds n = log2_of n.
Proof.
  intros n Hn. unfold aa_rounds. pose proof (bruck_dag_length n 0 0 Hn) as H.
  unfold bruck_dag in H. pose proof (bruck_loop_spec (bruck_rounds n) n 0 1 0) as HL.
  destruct (bruck_loop (bruck_rounds n) n 0 1 0) as [[l g] rn]. destruct HL as (L1 & _).
  destruct (bruck_extra n =? 0); [congruence|]. rewrite app_length in H. cbn [length] in H. lia.
Qed.

(** A block whose bit [r] is set is the image of a temporary block, and
    conversely. *)
Lemma blk_bit : forall r b, (b / 2 ^ r) mod 2 = 1 <-> exists t, b = blk (2 ^ r) t.
Proof.
  intros r b. pose proof (pow2_pos r) as Hp. set (g := 2 ^ r) in *. split.
  - intros H. exists (g * (b / g / 2) + b mod g).
    pose proof (Nat.mod_upper_bound b g ltac:(lia)).
    rewrite (blk_bounds g (b / g / 2)) by lia.
    pose proof (Nat.div_mod b g ltac:(lia)). pose proof (Nat.div_mod (b / g) 2 ltac:(lia)).
    rewrite H in H2. rewrite H1 at 1. rewrite H2 at 1. lia.
  - intros (t & ->). unfold blk. pose proof (Nat.mod_upper_bound t g ltac:(lia)).
    assert (E : (2 * g * (t / g) + g + t mod g) / g = 2 * (t / g) + 1).
    { symmetry. apply (Nat.div_unique _ g _ (t mod g)); lia. }
    rewrite E. symmetry. apply (Nat.mod_unique _ 2 (t / g) 1); lia.
Qed.

Lemma mod_pow_S : forall r b, b mod 2 ^ S r = 2 ^ r * ((b / 2 ^ r) mod 2) + b mod 2 ^ r.
Proof.
  intros r b. pose proof (pow2_pos r) as Hp. cbn [Nat.pow].
  rewrite (Nat.mul_comm 2), Nat.mod_mul_r by lia. lia.
Qed.

Section Aa.
Context {T : Type}.
Variables (n ne : nat) (dst src : nat -> nat -> T) (tmp : nat -> T).
Hypothesis Hn : 0 < n.
Let s := aa_sched n ne dst src tmp.

Lemma aa_nr : sc_nr s = log2_of n.
Proof. apply aa_rounds_eq. exact Hn. Qed.

Lemma aa_matched : matched s.
Proof.
  intros r p q Hr Hp. rewrite aa_nr in Hr. change (sc_np s) with n in *.
  unfold s, aa_sched; cbn [sc_to sc_from]. rewrite aa_gap_pow.
  pose proof (bruck_gap_lt n r Hr) as Hg.
  split; intros H; injection H as <-; (split; [apply Nat.mod_upper_bound; lia|]); f_equal.
  - apply mod_add_sub; lia.
  - apply mod_sub_add; lia.
Qed.

Lemma aa_no_race : no_race s.
Proof. intros r p q Hr Hp Hf. reflexivity. Qed.

Lemma aa_init_block : forall p b e, p < n -> b < n -> e < ne ->
  aa_init n ne p (dst p) (src p) (b * ne + e) = src p ((p + b) mod n * ne + e).
Proof.
  intros p b e Hp Hb He. unfold aa_init.
  assert (H1 : p * ne <= n * ne) by (apply Nat.mul_le_mono_r; lia).
  destruct (lt_dec (p + b) n) as [H|H].
  - rewrite Nat.mod_small by exact H.
    pose proof (idx_lt ne (p + b) n e H He) as Hx. rewrite Nat.mul_add_distr_r in *.
    rewrite bwrite_out by (rewrite bread_length; lia).
    rewrite (bwrite_in _ _ _ _ (src 0 0)) by (rewrite bread_length; lia).
    rewrite nth_bread by lia. f_equal. lia.
  - assert (E : (p + b) mod n = p + b - n).
    { replace (p + b) with (p + b - n + 1 * n) at 1 by lia. rewrite Nat.mod_add by lia.
      apply Nat.mod_small. lia. }
    rewrite E.
    pose proof (idx_lt ne (p + b - n) p e ltac:(lia) He) as Hx.
    assert (Hy : (p + b - n) * ne = p * ne + b * ne - n * ne)
      by (rewrite Nat.mul_sub_distr_r, Nat.mul_add_distr_r; reflexivity).
    assert (Hz : n * ne <= p * ne + b * ne)
      by (rewrite <- Nat.mul_add_distr_r; apply Nat.mul_le_mono_r; lia).
    rewrite (bwrite_in _ _ _ _ (src 0 0)) by (rewrite bread_length; lia).
    rewrite nth_bread by lia. f_equal. lia.
Qed.

(** After [r] rounds block [b] of rank [p] comes from the rank [b mod 2^r]
    below it. *)
Lemma aa_smem : forall r p b e, r <= log2_of n -> p < n -> b < n -> e < ne ->
  a_res (smem s r p) (b * ne + e) =
  src ((p + n - b mod 2 ^ r) mod n) (((p + n - b mod 2 ^ r) mod n + b) mod n * ne + e).
Proof.
  induction r as [|r IH]; intros p b e Hr Hp Hb He.
  - cbn [Nat.pow]. rewrite Nat.mod_1_r, Nat.sub_0_r.
    replace ((p + n) mod n) with p.
    + apply aa_init_block; assumption.
    + replace (p + n) with (p + 1 * n) by lia. rewrite Nat.mod_add by lia. symmetry. apply Nat.mod_small. exact Hp.
  - rewrite smem_S. pose proof (bruck_gap_lt n r ltac:(lia)) as Hg. pose proof (pow2_pos r) as Hp2.
    set (q := (p + n - 2 ^ r) mod n).
    assert (Hq : q < n) by (apply Nat.mod_upper_bound; lia).
    assert (Hb' : bmem s r p = sc_in s r p (amem s r p) (sc_out s r q (amem s r q))).
    { unfold bmem. unfold s at 1, aa_sched; cbn [sc_from]. rewrite aa_gap_pow. reflexivity. }
    rewrite Hb'. unfold amem, s, aa_sched; cbn [sc_post sc_in sc_out sc_pre a_res a_snd a_rcv].
    fold (@aa_sched T n ne dst src tmp). fold s. rewrite aa_gap_pow.
    set (g := 2 ^ r) in *.
    set (sz := num_send_blocks n g * ne).
    rewrite firstn_all2 by (rewrite bread_length; lia).
    set (rcv := bwrite _ 0 _).
    destruct (shuffle_from_spec n ne g ltac:(lia) n 0 rcv (a_res (smem s r p)) ltac:(lia)) as (F1 & F2).
    rewrite Nat.mul_0_r, Nat.add_0_l, Nat.mul_0_l in F1, F2.
    pose proof (mod_pow_S r b) as Hmod. fold g in Hmod.
    destruct (Nat.eq_dec ((b / g) mod 2) 1) as [Hbit|Hbit].
    + destruct (proj1 (blk_bit r b) Hbit) as (t & Ht). fold g in Ht.
      rewrite Ht in Hb. rewrite Ht at 1.
      rewrite (F2 t e He ltac:(lia) Hb). unfold rcv.
      assert (Hts : t < num_send_blocks n g) by (apply blk_lt; lia).
      pose proof (idx_lt ne t (num_send_blocks n g) e Hts He) as Hidx. fold sz in Hidx.
      rewrite (bwrite_in _ _ _ _ (tmp 0)) by (rewrite bread_length; lia).
      rewrite nth_bread by lia. rewrite Nat.add_0_l, Nat.sub_0_r.
      destruct (shuffle_to_spec n ne g ltac:(lia) n 0 (a_res (smem s r q)) (a_snd (smem s r q))
                 ltac:(lia) (t * ne + e)) as (_ & G2).
      rewrite Nat.mul_0_r, Nat.add_0_l, Nat.mul_0_l in G2.
      rewrite (G2 t e eq_refl He ltac:(lia) Hb). rewrite <- Ht. rewrite <- Ht in Hb.
      rewrite IH by (try assumption; lia). fold g.
      rewrite Hmod, Hbit, Nat.mul_1_r.
      assert (Hbm : b mod g <= b) by (apply Nat.mod_le; lia).
      assert (Hbg : g <= b).
      { rewrite Ht. unfold blk. lia. }
      assert (Hbb : g + b mod g <= b).
      { pose proof (Nat.div_mod b g ltac:(lia)). assert (1 <= b / g) by (apply Nat.div_le_lower_bound; lia).
        assert (g * 1 <= g * (b / g)) by (apply Nat.mul_le_mono_l; lia). lia. }
      assert (Hqq : (q + n - b mod g) mod n = (p + n - (g + b mod g)) mod n).
      { unfold q. destruct (le_dec g p) as [H|H].
        - replace (p + n - g) with (p - g + 1 * n) by lia. rewrite Nat.mod_add by lia.
          rewrite (Nat.mod_small (p - g)) by lia. f_equal. lia.
        - rewrite (Nat.mod_small (p + n - g)) by lia.
          replace (p + n - g + n - b mod g) with (p + n - (g + b mod g) + 1 * n) by lia.
          rewrite Nat.mod_add by lia. reflexivity. }
      rewrite Hqq. reflexivity.
    + rewrite F1.
      * rewrite IH by (try assumption; lia). fold g.
        assert (Hz : (b / g) mod 2 = 0) by (pose proof (Nat.mod_upper_bound (b / g) 2 ltac:(lia)); lia).
        rewrite Hmod, Hz, Nat.mul_0_r, Nat.add_0_l. reflexivity.
      * exact He.
      * intros t _ _ Ht. apply Hbit. apply (blk_bit r b). exists t. exact Ht.
Qed.

Lemma aa_final_loop_spec : forall k me (res t0 : nat -> T) i e, me < n -> k <= n -> i < n -> e < ne ->
  aa_final_loop k n ne me res t0 (((me + n - i) mod n) * ne + e) =
  if i <? k then res (i * ne + e) else t0 (((me + n - i) mod n) * ne + e).
Proof.
  assert (Hx : forall me x, me < n -> x < n -> (me + n - x) mod n = if x <=? me then me - x else me + n - x).
  { intros me x Hm Hx. destruct (Nat.leb_spec x me).
    - replace (me + n - x) with (me - x + 1 * n) by lia. rewrite Nat.mod_add by lia. apply Nat.mod_small. lia.
    - apply Nat.mod_small. lia. }
  induction k as [|k IH]; intros me res t0 i e Hm Hk Hi He; cbn [aa_final_loop].
  - reflexivity.
  - destruct (Nat.eq_dec i k) as [->|Hne].
    + rewrite (proj2 (Nat.ltb_lt k (S k))) by lia.
      rewrite (bwrite_in _ _ _ _ (res 0)) by (rewrite bread_length; lia).
      rewrite nth_bread by lia. f_equal. lia.
    + assert (Hd : (me + n - i) mod n <> (me + n - k) mod n).
      { rewrite !Hx by lia. destruct (Nat.leb_spec i me), (Nat.leb_spec k me); lia. }
      rewrite bwrite_out.
      * rewrite IH by (try assumption; lia).
        destruct (Nat.ltb_spec i k), (Nat.ltb_spec i (S k)); try lia; reflexivity.
      * rewrite bread_length. destruct (lt_dec ((me + n - i) mod n) ((me + n - k) mod n)) as [H|H].
        -- left. apply idx_lt; assumption.
        -- right. assert (Hmm : S ((me + n - k) mod n) * ne <= (me + n - i) mod n * ne)
             by (apply Nat.mul_le_mono_r; lia).
           cbn [Nat.mul] in Hmm. lia.
Qed.

Lemma aa_final : forall p j e (res : nat -> T), p < n -> j < n -> e < ne ->
  aa_finalize n ne p res (j * ne + e) = res ((p + n - j) mod n * ne + e).
Proof.
  intros p j e res Hp Hj He. unfold aa_finalize.
  pose proof (idx_lt ne j n e Hj He) as Hx.
  rewrite (bwrite_in _ _ _ _ (res 0)) by (rewrite bread_length; lia).
  rewrite nth_bread by lia. rewrite Nat.add_0_l, Nat.sub_0_r.
  set (i := (p + n - j) mod n).
  assert (Hi : i < n) by (apply Nat.mod_upper_bound; lia).
  assert (Hji : j = (p + n - i) mod n).
  { unfold i. destruct (le_dec j p) as [H|H].
    - replace (p + n - j) with (p - j + 1 * n) by lia. rewrite Nat.mod_add by lia.
      rewrite (Nat.mod_small (p - j)) by lia. replace (p + n - (p - j)) with (j + 1 * n) by lia.
      rewrite Nat.mod_add by lia. symmetry. apply Nat.mod_small. exact Hj.
    - rewrite (Nat.mod_small (p + n - j)) by lia.
      replace (p + n - (p + n - j)) with j by lia. symmetry. apply Nat.mod_small. exact Hj. }
  rewrite Hji at 1. rewrite aa_final_loop_spec by (try assumption; lia).
  rewrite (proj2 (Nat.ltb_lt i n)) by exact Hi. reflexivity.
Qed.
End Aa.
