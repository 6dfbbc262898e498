(** C28: Bruck alltoall is a transpose. *)
From Coq Require Import List Arith Lia Bool.
From Verif Require Import RdModel RdProof AgModel AgProof AaModel AaProof.
Import ListNotations.

(** For every number of ranks, block size and contents and every interleaving:
    block [j] of rank [p]'s result is block [p] of rank [j]'s send buffer. *)
Theorem alltoall_transposes : forall T (n ne : nat) (dst src : nat -> nat -> T) tmp k c p,
  0 < n -> rexec (aa_sched n ne dst src tmp) k c -> p < n ->
  l_rnd (r_loc c p) = sc_nr (aa_sched n ne dst src tmp) ->
  forall j e, j < n -> e < ne ->
    aa_finalize n ne p (a_res (l_mem (r_loc c p))) (j * ne + e) = src j (p * ne + e).
Proof.
  intros T n ne dst src tmp k c p Hn Hx Hp Hr j e Hj He.
  rewrite (rounds_result _ (aa_matched n ne dst src tmp Hn) (aa_no_race n ne dst src tmp) k c p Hx Hp Hr).
  rewrite (aa_final n ne Hn) by assumption. rewrite (aa_nr n ne dst src tmp Hn).
  set (i := (p + n - j) mod n).
  assert (Hi : i < n) by (apply Nat.mod_upper_bound; lia).
  rewrite aa_smem by (try assumption; lia).
  pose proof (ctree_ok n) as (_ & P2 & _).
  rewrite (Nat.mod_small i) by lia.
  assert (Hji : (p + n - i) mod n = j).
  { unfold i. destruct (le_dec j p) as [H|H].
    - replace (p + n - j) with (p - j + 1 * n) by lia. rewrite Nat.mod_add by lia.
      rewrite (Nat.mod_small (p - j)) by lia. replace (p + n - (p - j)) with (j + 1 * n) by lia.
      rewrite Nat.mod_add by lia. apply Nat.mod_small. exact Hj.
    - rewrite (Nat.mod_small (p + n - j)) by lia.
      replace (p + n - (p + n - j)) with j by lia. apply Nat.mod_small. exact Hj. }
  rewrite Hji. f_equal. f_equal. f_equal. unfold i.
  rewrite Nat.add_mod_idemp_r by lia. replace (j + (p + n - j)) with (p + 1 * n) by lia.
  rewrite Nat.mod_add by lia. apply Nat.mod_small. exact Hp.
Qed.
Print Assumptions alltoall_transposes.

Theorem alltoall_terminates : forall T (n ne : nat) (dst src : nat -> nat -> T) tmp k c,
  0 < n -> rexec (aa_sched n ne dst src tmp) k c ->
  k <= 4 * log2_of n * n /\
  ((forall p, p < n -> l_rnd (r_loc c p) = log2_of n) \/ exists c', rstep (aa_sched n ne dst src tmp) c c').
Proof.
  intros T n ne dst src tmp k c Hn Hx. split.
  - pose proof (rounds_bounded _ (aa_matched n ne dst src tmp Hn) (aa_no_race n ne dst src tmp) k c Hx) as H.
    rewrite aa_nr in H by exact Hn. exact H.
  - pose proof (rounds_progress _ (aa_matched n ne dst src tmp Hn) (aa_no_race n ne dst src tmp) k c Hx) as H.
    rewrite aa_nr in H by exact Hn. exact H.
Qed.
Print Assumptions alltoall_terminates.

(** The temporary buffers are large enough: a round never packs more than
    [midpoint] blocks, which is what initBuffers allocates
    (sumi/alltoall.cc:83-86). *)
Theorem alltoall_temp_fits : forall n r, 0 < n -> r < log2_of n ->
  num_send_blocks n (aa_gap r) <= midpoint_of n.
Proof.
  intros n r Hn Hr. rewrite aa_gap_pow. destruct (ctree_ok n) as (P1 & P2 & _).
  pose proof (bruck_gap_lt n r Hr) as Hg. pose proof (pow2_pos r) as Hp.
  destruct (le_lt_dec (num_send_blocks n (2 ^ r)) (midpoint_of n)) as [H|H]; [exact H|exfalso].
  apply (blk_lt (2 ^ r) n) in H; try lia.
  unfold midpoint_of in H. rewrite P1 in H.
  destruct (log2_of n) as [|L] eqn:EL; [lia|]. cbn [Nat.pow] in *.
  rewrite (Nat.mul_comm 2), Nat.div_mul in H by lia.
  assert (HL : 2 ^ L = 2 ^ r * 2 ^ (L - r)) by (rewrite <- Nat.pow_add_r; f_equal; lia).
  rewrite HL in *.
  rewrite (blk_bounds (2 ^ r) (2 ^ (L - r))) in H by lia. lia.
Qed.
Print Assumptions alltoall_temp_fits.

(** Nothing past the caller's result buffer of [n] blocks is touched. *)
Lemma shuffle_from_past : forall T f n ne g m t (rcv res : nat -> T) i, n * ne <= i ->
  shuffle_from f n ne g m t rcv res i = res i.
Proof.
  intros T f. induction f as [|f IH]; intros n ne g m t rcv res i Hi; [reflexivity|].
  cbn [shuffle_from]. destruct (Nat.ltb_spec m n) as [H|H]; [|reflexivity].
  rewrite IH by exact Hi. apply bwrite_out. rewrite bread_length. right.
  rewrite <- Nat.mul_add_distr_r. apply (Nat.le_trans _ (n * ne)); [|exact Hi].
  apply Nat.mul_le_mono_r. lia.
Qed.

Theorem alltoall_no_overrun : forall T (n ne : nat) (dst src : nat -> nat -> T) tmp k c p,
  0 < n -> rexec (aa_sched n ne dst src tmp) k c -> p < n ->
  l_rnd (r_loc c p) = sc_nr (aa_sched n ne dst src tmp) ->
  forall i, n * ne <= i -> aa_finalize n ne p (a_res (l_mem (r_loc c p))) i = dst p i.
Proof.
  intros T n ne dst src tmp k c p Hn Hx Hp Hr i Hi.
  rewrite (rounds_result _ (aa_matched n ne dst src tmp Hn) (aa_no_race n ne dst src tmp) k c p Hx Hp Hr).
  unfold aa_finalize. rewrite bwrite_out by (rewrite bread_length; lia).
  generalize (sc_nr (aa_sched n ne dst src tmp)). intros r. induction r as [|r IH].
  - cbn [smem]. unfold aa_sched at 1. cbn [sc_init a_res]. unfold aa_init.
    assert (H : p * ne <= n * ne) by (apply Nat.mul_le_mono_r; lia).
    rewrite bwrite_out by (rewrite bread_length; lia).
    apply bwrite_out. rewrite bread_length. lia.
  - rewrite smem_S. unfold aa_sched at 1. cbn [sc_post a_res].
    rewrite shuffle_from_past by exact Hi. unfold bmem, amem.
    unfold aa_sched at 1. cbn [sc_from]. unfold aa_sched at 1. cbn [sc_in a_res].
    unfold aa_sched at 1. cbn [sc_pre a_res]. exact IH.
Qed.
Print Assumptions alltoall_no_overrun.

Example alltoall_lockstep_6 :
  let s := aa_sched 6 2 (fun _ _ => 0) (fun p i => 100 * p + i) (fun _ => 7) in
  map (aa_finalize 6 2 4 (a_res (smem s 3 4))) (seq 0 12)
  = [8; 9; 108; 109; 208; 209; 308; 309; 408; 409; 508; 509].
Proof. vm_compute. reflexivity. Qed.

Example alltoall_round_blocks_6 : map (fun r => num_send_blocks 6 (aa_gap r)) [0; 1; 2] = [3; 2; 2].
Proof. reflexivity. Qed.

Example alltoall_run_exists : forall n ne (dst src : nat -> nat -> nat) tmp, 0 < n ->
  exists k c, rexec (aa_sched n ne dst src tmp) k c /\ forall p, p < n -> l_rnd (r_loc c p) = log2_of n.
Proof.
  intros n ne dst src tmp Hn.
  assert (H : forall m k c, rexec (aa_sched n ne dst src tmp) k c -> m + k = 4 * log2_of n * n ->
    exists k' c', rexec (aa_sched n ne dst src tmp) k' c' /\ forall p, p < n -> l_rnd (r_loc c' p) = log2_of n).
  { induction m as [|m IH]; intros k c Hx Hk.
    - destruct (alltoall_terminates nat n ne dst src tmp k c Hn Hx) as (_ & [H|(c' & H)]).
      + exists k, c. auto.
      + destruct (alltoall_terminates nat n ne dst src tmp (S k) c' Hn (rxS _ _ _ _ Hx H)) as (Hb & _). lia.
    - destruct (alltoall_terminates nat n ne dst src tmp k c Hn Hx) as (_ & [H|(c' & H)]).
      + exists k, c. auto.
      + apply (IH (S k) c' (rxS _ _ _ _ Hx H)). lia. }
  apply (H (4 * log2_of n * n) 0 (rinit _) (rx0 _)). lia.
Qed.
