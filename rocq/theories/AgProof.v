(** Bruck and ring allgather: the lockstep run. *)
From Coq Require Import List Arith Lia Bool.
From Verif Require Import RdModel RdProof AgModel.
Import ListNotations.

Lemma pow2_pos : forall k, 1 <= 2 ^ k.
Proof. intros k. pose proof (Nat.pow_nonzero 2 k). lia. Qed.

Lemma bruck_loop_spec : forall k nproc me gap rn,
  let '(l, g, n) := bruck_loop k nproc me gap rn in
  length l = k /\ g = gap * 2 ^ k /\ n = rn * 2 ^ k /\
  forall i, i < k -> nth_error l i =
    Some {| x_sp := (me + nproc - gap * 2 ^ i) mod nproc; x_rp := (me + gap * 2 ^ i) mod nproc;
            x_so := 0; x_sn := rn * 2 ^ i; x_ro := rn * 2 ^ i; x_rn := rn * 2 ^ i |}.
Proof.
  induction k as [|k IH]; intros nproc me gap rn; cbn [bruck_loop].
  - repeat split; [cbn; lia | cbn; lia | intros i Hi; lia].
  - specialize (IH nproc me (gap * 2) (rn * 2)).
    destruct (bruck_loop k nproc me (gap * 2) (rn * 2)) as [[l g] n].
    destruct IH as (H1 & H2 & H3 & H4). cbn [length Nat.pow]. repeat split; try lia.
    intros [|i] Hi; cbn [nth_error].
    + cbn [Nat.pow]. rewrite !Nat.mul_1_r. reflexivity.
    + rewrite H4 by lia. cbn [Nat.pow].
      replace (gap * 2 * 2 ^ i) with (gap * (2 * 2 ^ i)) by lia.
      replace (rn * 2 * 2 ^ i) with (rn * (2 * 2 ^ i)) by lia. reflexivity.
Qed.

(** What the schedule of every rank looks like in closed form. *)
Lemma bruck_dag_nth : forall n ne me r, 0 < n -> r < log2_of n ->
  nth_error (bruck_dag n ne me) r =
    Some {| x_sp := (me + n - 2 ^ r) mod n; x_rp := (me + 2 ^ r) mod n;
            x_so := 0; x_sn := ne * Nat.min (2 ^ r) (n - 2 ^ r);
            x_ro := ne * 2 ^ r; x_rn := ne * Nat.min (2 ^ r) (n - 2 ^ r) |}.
Proof.
  intros n ne me r Hn Hr. destruct (ctree_ok n) as (P1 & P2 & P3).
  destruct P3 as [P3|P3]; [lia|].
  unfold bruck_dag.
  pose proof (bruck_loop_spec (bruck_rounds n) n me 1 ne) as HL.
  destruct (bruck_loop (bruck_rounds n) n me 1 ne) as [[l g] rn].
  destruct HL as (L1 & L2 & L3 & L4). unfold bruck_rounds, bruck_extra, midpoint_of in *.
  rewrite P1 in *.
  destruct (Nat.eqb_spec n (2 ^ log2_of n)) as [He|He].
  - rewrite Nat.eqb_refl, L4 by exact Hr. rewrite Nat.mul_1_l.
    assert (2 ^ S r <= 2 ^ log2_of n) by (apply Nat.pow_le_mono_r; lia).
    cbn [Nat.pow] in H. rewrite Nat.min_l by lia. reflexivity.
  - assert (Hhalf : 2 ^ log2_of n / 2 = 2 ^ (log2_of n - 1)).
    { destruct (log2_of n) as [|k]; [lia|]. cbn [Nat.pow]. replace (S k - 1) with k by lia.
      rewrite Nat.mul_comm, Nat.div_mul by lia. reflexivity. }
    rewrite Hhalf in *.
    assert (Hex : n - 2 ^ (log2_of n - 1) <> 0) by lia.
    rewrite (proj2 (Nat.eqb_neq _ _) Hex).
    assert (Hdbl : 2 ^ log2_of n = 2 * 2 ^ (log2_of n - 1)).
    { destruct (log2_of n) as [|k]; [lia|]. cbn [Nat.pow]. replace (S k - 1) with k by lia. reflexivity. }
    destruct (Nat.eq_dec r (log2_of n - 1)) as [->|Hne].
    + rewrite nth_error_app2 by lia. rewrite L1, Nat.sub_diag. cbn [nth_error].
      rewrite L2, L3, Nat.mul_1_l, Nat.min_r by lia. f_equal. f_equal; lia.
    + rewrite nth_error_app1 by lia. rewrite L4 by lia. rewrite Nat.mul_1_l.
      assert (2 ^ S r <= 2 ^ (log2_of n - 1)) by (apply Nat.pow_le_mono_r; lia).
      cbn [Nat.pow] in H. rewrite Nat.min_l by lia. reflexivity.
Qed.

Lemma bruck_dag_length : forall n ne me, 0 < n -> length (bruck_dag n ne me) = log2_of n.
Proof.
  intros n ne me Hn. destruct (ctree_ok n) as (P1 & P2 & P3).
  unfold bruck_dag. pose proof (bruck_loop_spec (bruck_rounds n) n me 1 ne) as HL.
  destruct (bruck_loop (bruck_rounds n) n me 1 ne) as [[l g] rn].
  destruct HL as (L1 & _). unfold bruck_rounds, bruck_extra, midpoint_of in *. rewrite P1 in *.
  destruct (Nat.eqb_spec n (2 ^ log2_of n)) as [He|He]; [exact L1|].
  destruct P3 as [P3|P3]; [rewrite P3 in *; cbn in *; lia|].
  assert (Hhalf : 2 ^ log2_of n / 2 = 2 ^ (log2_of n - 1)).
  { destruct (log2_of n) as [|k]; [cbn in *; lia|]. cbn [Nat.pow]. replace (S k - 1) with k by lia.
    rewrite Nat.mul_comm, Nat.div_mul by lia. reflexivity. }
  rewrite Hhalf in *. rewrite (proj2 (Nat.eqb_neq _ 0)) by lia.
  rewrite app_length. cbn [length]. destruct (log2_of n) as [|k]; [cbn in *; lia|]. lia.
Qed.

Lemma bruck_gap_lt : forall n r, r < log2_of n -> 2 ^ r < n.
Proof.
  intros n r Hr. destruct (ctree_ok n) as (_ & _ & [P|P]); [lia|].
  assert (2 ^ r <= 2 ^ (log2_of n - 1)) by (apply Nat.pow_le_mono_r; lia). lia.
Qed.

Lemma mod_sub_add : forall n p g, p < n -> g <= n -> ((p + n - g) mod n + g) mod n = p.
Proof.
  intros n p g Hp Hg. rewrite Nat.add_mod_idemp_l by lia.
  replace (p + n - g + g) with (p + 1 * n) by lia.
  rewrite Nat.mod_add by lia. apply Nat.mod_small. exact Hp.
Qed.

Lemma mod_add_sub : forall n p g, p < n -> g <= n -> ((p + g) mod n + n - g) mod n = p.
Proof.
  intros n p g Hp Hg. destruct (lt_dec (p + g) n) as [H|H].
  - rewrite (Nat.mod_small (p + g)) by exact H.
    replace (p + g + n - g) with (p + 1 * n) by lia.
    rewrite Nat.mod_add by lia. apply Nat.mod_small. exact Hp.
  - assert (Hx : (p + g) mod n = p + g - n).
    { replace (p + g) with (p + g - n + 1 * n) at 1 by lia.
      rewrite Nat.mod_add by lia. apply Nat.mod_small. lia. }
    rewrite Hx. replace (p + g - n + n - g) with p by lia. apply Nat.mod_small. exact Hp.
Qed.

Section Bruck.
Context {T : Type}.
Variables (n ne : nat) (dst : nat -> nat -> T) (src : nat -> option (nat -> T)).
Hypothesis Hn : 0 < n.
Let s := bruck_sched n ne dst src.

Lemma bruck_nr : sc_nr s = log2_of n.
Proof. apply bruck_dag_length. exact Hn. Qed.

Lemma bruck_to : forall r p, r < log2_of n -> sc_to s r p = Some ((p + n - 2 ^ r) mod n).
Proof. intros r p Hr. unfold s, bruck_sched; cbn [sc_to]. rewrite bruck_dag_nth by auto. reflexivity. Qed.

Lemma bruck_from : forall r p, r < log2_of n -> sc_from s r p = Some ((p + 2 ^ r) mod n).
Proof. intros r p Hr. unfold s, bruck_sched; cbn [sc_from]. rewrite bruck_dag_nth by auto. reflexivity. Qed.

Lemma bruck_out : forall r p b, r < log2_of n ->
  sc_out s r p b = bread b 0 (ne * Nat.min (2 ^ r) (n - 2 ^ r)).
Proof. intros r p b Hr. unfold s, bruck_sched; cbn [sc_out]. rewrite bruck_dag_nth by auto. reflexivity. Qed.

Lemma bruck_in : forall r p b m, r < log2_of n ->
  sc_in s r p b m = bwrite b (ne * 2 ^ r) (firstn (ne * Nat.min (2 ^ r) (n - 2 ^ r)) m).
Proof. intros r p b m Hr. unfold s, bruck_sched; cbn [sc_in]. rewrite bruck_dag_nth by auto. reflexivity. Qed.

Lemma bruck_matched : matched s.
Proof.
  intros r p q Hr Hp. rewrite bruck_nr in Hr. change (sc_np s) with n in *.
  pose proof (bruck_gap_lt n r Hr) as Hg.
  rewrite (bruck_to r p), (bruck_from r p) by exact Hr. split; intros H; injection H as <-.
  - split; [apply Nat.mod_upper_bound; lia|]. rewrite bruck_from by exact Hr.
    rewrite mod_sub_add by lia. reflexivity.
  - split; [apply Nat.mod_upper_bound; lia|]. rewrite bruck_to by exact Hr.
    rewrite mod_add_sub by lia. reflexivity.
Qed.

Lemma bruck_no_race : no_race s.
Proof.
  intros r p q Hr Hp Hf. rewrite bruck_nr in Hr.
  rewrite !bruck_out, bruck_in by exact Hr.
  apply bread_bwrite_disjoint. left. rewrite Nat.add_0_l. apply Nat.mul_le_mono_l. lia.
Qed.

(** The contribution of rank [j]. *)
Definition contrib (j e : nat) : T :=
  match src j with None => dst j (j * ne + e) | Some b => b e end.

Lemma bruck_init_block : forall p e, p < n -> e < ne ->
  bruck_init ne p (dst p) (src p) e = contrib p e.
Proof.
  intros p e Hp He. unfold bruck_init, contrib. destruct (src p) as [b|].
  - rewrite (bwrite_in _ _ _ _ (b 0)) by (rewrite bread_length; lia).
    rewrite nth_bread by lia. f_equal. lia.
  - destruct (Nat.eqb_spec p 0) as [->|Hz]; [f_equal; lia|].
    rewrite (bwrite_in _ _ _ _ (dst 0 0)) by (rewrite bread_length; lia).
    rewrite nth_bread by lia. f_equal. lia.
Qed.

Lemma bruck_smem : forall r p b e, r <= log2_of n -> p < n -> b < Nat.min (2 ^ r) n -> e < ne ->
  smem s r p (b * ne + e) = contrib ((p + b) mod n) e.
Proof.
  induction r as [|r IH]; intros p b e Hr Hp Hb He.
  - cbn [Nat.pow] in Hb. replace b with 0 by lia. cbn [Nat.mul]. rewrite !Nat.add_0_l, Nat.add_0_r.
    rewrite Nat.mod_small by exact Hp. apply bruck_init_block; assumption.
  - rewrite smem_S. change (sc_post s r p (bmem s r p)) with (bmem s r p).
    unfold bmem, amem. rewrite bruck_from by lia.
    change (sc_pre s r p (smem s r p)) with (smem s r p).
    pose proof (bruck_gap_lt n r ltac:(lia)) as Hg.
    set (q := (p + 2 ^ r) mod n).
    assert (Hq : q < n) by (apply Nat.mod_upper_bound; lia).
    change (sc_pre s r q (smem s r q)) with (smem s r q).
    rewrite bruck_in, bruck_out by lia.
    set (len := ne * Nat.min (2 ^ r) (n - 2 ^ r)).
    rewrite (firstn_all2 (n:=len)) by (rewrite bread_length; lia).
    cbn [Nat.pow] in Hb.
    destruct (lt_dec b (2 ^ r)) as [Hlow|Hhi].
    + rewrite bwrite_out.
      * apply IH; try assumption; lia.
      * left. assert (Hm : ne * S b <= ne * 2 ^ r) by (apply Nat.mul_le_mono_l; lia).
        rewrite Nat.mul_succ_r in Hm. lia.
    + assert (Hidx : b * ne + e - ne * 2 ^ r = (b - 2 ^ r) * ne + e).
      { rewrite Nat.mul_sub_distr_r. assert (2 ^ r * ne <= b * ne) by (apply Nat.mul_le_mono_r; lia). lia. }
      assert (Hlo : ne * 2 ^ r <= b * ne + e).
      { assert (2 ^ r * ne <= b * ne) by (apply Nat.mul_le_mono_r; lia). lia. }
      assert (Hin : (b - 2 ^ r) * ne + e < len).
      { unfold len. assert (Hm : ne * S (b - 2 ^ r) <= ne * Nat.min (2 ^ r) (n - 2 ^ r))
          by (apply Nat.mul_le_mono_l; lia).
        rewrite Nat.mul_succ_r in Hm. lia. }
      rewrite (bwrite_in _ _ _ _ (dst 0 0)) by (rewrite bread_length; lia).
      rewrite Hidx, nth_bread by exact Hin. rewrite Nat.add_0_l.
      rewrite IH by (try assumption; lia).
      f_equal. unfold q. rewrite Nat.add_mod_idemp_l by lia. f_equal. lia.
Qed.

Lemma bruck_final : forall p j e b, p < n -> j < n -> e < ne ->
  (forall k x, k < n -> x < ne -> b (k * ne + x) = contrib ((p + k) mod n) x) ->
  bruck_finalize n ne p b (j * ne + e) = contrib j e.
Proof.
  intros p j e b Hp Hj He Hb. unfold bruck_finalize.
  destruct (Nat.eqb_spec p 0) as [->|Hz].
  - rewrite Hb by assumption. cbn [Nat.add]. rewrite Nat.mod_small by exact Hj. reflexivity.
  - assert (Hpn : ne * p <= ne * n) by (apply Nat.mul_le_mono_l; lia).
    destruct (lt_dec j p) as [Hlt|Hge].
    + assert (Hin : j * ne + e < ne * p).
      { assert (Hm : ne * S j <= ne * p) by (apply Nat.mul_le_mono_l; lia).
        rewrite Nat.mul_succ_r in Hm. lia. }
      rewrite (bwrite_in _ _ _ _ (b 0)) by (rewrite bread_length; lia).
      rewrite nth_bread by lia.
      replace (ne * n - ne * p + (j * ne + e - 0)) with ((n - p + j) * ne + e)
        by (rewrite Nat.mul_add_distr_r, Nat.mul_sub_distr_r; lia).
      rewrite Hb by lia. f_equal.
      replace (p + (n - p + j)) with (j + 1 * n) by lia. rewrite Nat.mod_add by lia.
      apply Nat.mod_small. exact Hj.
    + assert (Hlo : p * ne <= j * ne) by (apply Nat.mul_le_mono_r; lia).
      assert (Hhi : j * ne + e < ne * n).
      { assert (Hm : ne * S j <= ne * n) by (apply Nat.mul_le_mono_l; lia).
        rewrite Nat.mul_succ_r in Hm. lia. }
      rewrite bwrite_out by (rewrite bread_length; lia).
      rewrite (bwrite_in _ _ _ _ (b 0)) by (rewrite bread_length; lia).
      rewrite nth_bread by lia.
      replace (0 + (j * ne + e - ne * p)) with ((j - p) * ne + e) by (rewrite Nat.mul_sub_distr_r; lia).
      rewrite Hb by lia. f_equal. replace (p + (j - p)) with j by lia. apply Nat.mod_small. exact Hj.
Qed.
End Bruck.
