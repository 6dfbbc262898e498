(** Ring allgather: the lockstep run. *)
From Coq Require Import List Arith Lia Bool.
From Verif Require Import RdModel RdProof AgModel AgProof.
Import ListNotations.

Lemma ring_prev : forall n me r, me < n -> r + 1 < n ->
  ((me + n - r) mod n + n - 1) mod n = (me + n - S r) mod n.
Proof.
  intros n me r Hm Hr.
  assert (Hx : (me + n - r) mod n = me + n - r \/ (me + n - r) mod n = me - r /\ r <= me).
  { destruct (le_dec r me) as [H|H].
    - right. split; [|exact H]. replace (me + n - r) with (me - r + 1 * n) by lia.
      rewrite Nat.mod_add by lia. apply Nat.mod_small. lia.
    - left. apply Nat.mod_small. lia. }
  destruct Hx as [->|[-> H]].
  - replace (me + n - r + n - 1) with (me + n - S r + 1 * n) by lia. rewrite Nat.mod_add by lia. reflexivity.
  - f_equal. lia.
Qed.

Lemma ring_loop_spec : forall n ne me k r, me < n -> k + r < n ->
  length (ring_loop k n ne me ((me + n - r) mod n)) = k /\
  forall i, i < k -> nth_error (ring_loop k n ne me ((me + n - r) mod n)) i =
    Some {| x_sp := (me + 1) mod n; x_rp := (me + n - 1) mod n;
            x_so := ((me + n - (r + i)) mod n) * ne; x_sn := ne;
            x_ro := ((me + n - (r + i + 1)) mod n) * ne; x_rn := ne |}.
Proof.
  intros n ne me k. induction k as [|k IH]; intros r Hm Hk; cbn [ring_loop].
  - split; [reflexivity|]. intros i Hi; lia.
  - rewrite ring_prev by lia. destruct (IH (S r) Hm ltac:(lia)) as (H1 & H2). split.
    + cbn [length]. rewrite H1. reflexivity.
    + intros [|i] Hi; cbn [nth_error].
      * rewrite Nat.add_0_r. replace (r + 1) with (S r) by lia. reflexivity.
      * rewrite H2 by lia. replace (r + S i) with (S r + i) by lia. reflexivity.
Qed.

Lemma ring_dag_spec : forall n ne me, me < n ->
  length (ring_dag n ne me) = n - 1 /\
  forall i, i < n - 1 -> nth_error (ring_dag n ne me) i =
    Some {| x_sp := (me + 1) mod n; x_rp := (me + n - 1) mod n;
            x_so := ((me + n - i) mod n) * ne; x_sn := ne;
            x_ro := ((me + n - (i + 1)) mod n) * ne; x_rn := ne |}.
Proof.
  intros n ne me Hm. unfold ring_dag.
  assert (E : me = (me + n - 0) mod n).
  { rewrite Nat.sub_0_r. replace (me + n) with (me + 1 * n) by lia. rewrite Nat.mod_add by lia.
    symmetry. apply Nat.mod_small. exact Hm. }
  pose proof (ring_loop_spec n ne me (n - 1) 0 Hm ltac:(lia)) as H. rewrite <- E in H. exact H.
Qed.

Section Ring.
Context {T : Type}.
Variables (n ne : nat) (dst : nat -> nat -> T).
Hypothesis Hn : 0 < n.
Let s := ring_sched n ne dst.

Lemma ring_nr : sc_nr s = n - 1.
Proof. apply (ring_dag_spec n ne 0 Hn). Qed.

Lemma ring_x : forall r p, r < n - 1 -> p < n -> nth_error (ring_dag n ne p) r =
    Some {| x_sp := (p + 1) mod n; x_rp := (p + n - 1) mod n;
            x_so := ((p + n - r) mod n) * ne; x_sn := ne;
            x_ro := ((p + n - (r + 1)) mod n) * ne; x_rn := ne |}.
Proof. intros r p Hr Hp. apply (ring_dag_spec n ne p Hp). exact Hr. Qed.

Lemma ring_matched : matched s.
Proof.
  intros r p q Hr Hp. rewrite ring_nr in Hr. change (sc_np s) with n in *.
  unfold s, ring_sched; cbn [sc_to sc_from]. rewrite (ring_x r p) by lia. cbn [option_map x_sp x_rp].
  split; intros H; injection H as <-.
  - assert (Hq : (p + 1) mod n < n) by (apply Nat.mod_upper_bound; lia). split; [exact Hq|].
    rewrite ring_x by assumption. cbn. rewrite mod_add_sub by lia. reflexivity.
  - assert (Hq : (p + n - 1) mod n < n) by (apply Nat.mod_upper_bound; lia). split; [exact Hq|].
    rewrite ring_x by assumption. cbn. rewrite mod_sub_add by lia. reflexivity.
Qed.

Lemma ring_chunks_differ : forall p r, p < n -> r + 1 < n ->
  (p + n - r) mod n <> (p + n - (r + 1)) mod n.
Proof.
  intros p r Hp Hr He.
  assert (Hx : forall x, x < n -> (p + n - x) mod n = if x <=? p then p - x else p + n - x).
  { intros x Hx. destruct (Nat.leb_spec x p).
    - replace (p + n - x) with (p - x + 1 * n) by lia. rewrite Nat.mod_add by lia. apply Nat.mod_small. lia.
    - apply Nat.mod_small. lia. }
  rewrite !Hx in He by lia.
  destruct (Nat.leb_spec r p), (Nat.leb_spec (r + 1) p); lia.
Qed.

Lemma block_disjoint : forall a b, a <> b -> a * ne + ne <= b * ne \/ b * ne + ne <= a * ne.
Proof.
  intros a b H. destruct (lt_dec a b) as [Hl|Hl].
  - left. assert (Hm : S a * ne <= b * ne) by (apply Nat.mul_le_mono_r; lia). cbn [Nat.mul] in Hm. lia.
  - right. assert (Hm : S b * ne <= a * ne) by (apply Nat.mul_le_mono_r; lia). cbn [Nat.mul] in Hm. lia.
Qed.

Lemma ring_no_race : no_race s.
Proof.
  intros r p q Hr Hp Hf. rewrite ring_nr in Hr. change (sc_np s) with n in Hp.
  unfold s, ring_sched in *; cbn [sc_out sc_in sc_from] in *.
  rewrite (ring_x r p) in * by lia. cbn [x_so x_sn x_ro x_rn] in *.
  apply bread_bwrite_disjoint.
  destruct (block_disjoint _ _ (ring_chunks_differ p r Hp ltac:(lia))) as [H|H].
  - left. exact H.
  - right. rewrite firstn_length.
    set (L := length _). assert (Nat.min ne L <= ne) by lia. lia.
Qed.

Lemma ring_smem : forall r p d e, r <= n - 1 -> p < n -> d <= r -> e < ne ->
  smem s r p (((p + n - d) mod n) * ne + e) =
  dst ((p + n - d) mod n) (((p + n - d) mod n) * ne + e).
Proof.
  induction r as [|r IH]; intros p d e Hr Hp Hd He.
  - replace d with 0 by lia. rewrite Nat.sub_0_r.
    replace ((p + n) mod n) with p; [reflexivity|].
    replace (p + n) with (p + 1 * n) by lia. rewrite Nat.mod_add by lia.
    symmetry. apply Nat.mod_small. exact Hp.
  - rewrite smem_S. change (sc_post s r p (bmem s r p)) with (bmem s r p).
    unfold bmem, amem. unfold s at 1. unfold ring_sched at 1; cbn [sc_from].
    rewrite (ring_x r p) by lia. cbn [option_map x_rp].
    change (sc_pre s r p (smem s r p)) with (smem s r p).
    set (q := (p + n - 1) mod n).
    assert (Hq : q < n) by (apply Nat.mod_upper_bound; lia).
    change (sc_pre s r q (smem s r q)) with (smem s r q).
    unfold s at 1. unfold ring_sched at 1; cbn [sc_in].
    rewrite (ring_x r p) by lia. cbn [x_ro x_rn].
    unfold s at 2. unfold ring_sched at 1; cbn [sc_out].
    rewrite (ring_x r q) by lia. cbn [x_so x_sn].
    rewrite firstn_all2 by (rewrite bread_length; lia).
    assert (Hqr : (q + n - r) mod n = (p + n - (r + 1)) mod n).
    { unfold q. replace (r + 1) with (1 + r) by lia.
      destruct (Nat.eq_dec p 0) as [->|Hz].
      - cbn [Nat.add]. rewrite (Nat.mod_small (n - 1)) by lia.
        replace (n - 1 + n - r) with (n - (1 + r) + 1 * n) by lia. rewrite Nat.mod_add by lia. reflexivity.
      - replace (p + n - 1) with (p - 1 + 1 * n) by lia. rewrite Nat.mod_add by lia.
        rewrite (Nat.mod_small (p - 1)) by lia. f_equal. lia. }
    rewrite Hqr.
    set (c := (p + n - (r + 1)) mod n).
    destruct (Nat.eq_dec ((p + n - d) mod n) c) as [Hc|Hc].
    + rewrite Hc. rewrite (bwrite_in _ _ _ _ (dst 0 0)) by (rewrite bread_length; lia).
      rewrite nth_bread by lia.
      replace (c * ne + (c * ne + e - c * ne)) with (c * ne + e) by lia.
      unfold c. rewrite <- Hqr. apply IH; try assumption; lia.
    + rewrite bwrite_out.
      * destruct (Nat.eq_dec d (S r)) as [->|Hne].
        { exfalso. apply Hc. unfold c. f_equal. lia. }
        apply IH; try assumption; lia.
      * rewrite bread_length. destruct (block_disjoint _ _ Hc) as [H|H]; lia.
Qed.
End Ring.
