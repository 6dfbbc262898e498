(** C27, C78, C79: allgather and barrier. *)
From Coq Require Import List Arith Lia Bool.
From Verif Require Import RdModel RdProof AgModel AgProof AgRing.
Import ListNotations.

(** What the user hands in: block [e] of rank [j]'s contribution is element [e]
    of its send buffer or, in place, element [j*ne+e] of its receive buffer. *)
Definition contribution {T} (ne : nat) (dst : nat -> nat -> T) (src : nat -> option (nat -> T))
  (j e : nat) : T :=
  match src j with None => dst j (j * ne + e) | Some b => b e end.

(** C27.  For every number of ranks, block size and contents, in place or not,
    and every interleaving of the ranks' actions: a rank that is done holds
    rank [j]'s contribution in block [j], for all [j]. *)
Theorem allgather_delivers_all_blocks : forall T (n ne : nat) dst (src : nat -> option (nat -> T)) k c p,
  0 < n -> rexec (bruck_sched n ne dst src) k c -> p < n ->
  l_rnd (r_loc c p) = sc_nr (bruck_sched n ne dst src) ->
  forall j e, j < n -> e < ne ->
    bruck_finalize n ne p (l_mem (r_loc c p)) (j * ne + e) = contribution ne dst src j e.
Proof.
  intros T n ne dst src k c p Hn Hx Hp Hr j e Hj He.
  rewrite (rounds_result _ (bruck_matched n ne dst src Hn) (bruck_no_race n ne dst src Hn) k c p Hx Hp Hr).
  apply (bruck_final n ne dst src); try assumption.
  intros b x Hb Hxx. rewrite bruck_nr by exact Hn. apply bruck_smem; try assumption; try lia.
  pose proof (ctree_ok n). lia.
Qed.
Print Assumptions allgather_delivers_all_blocks.

(** A rank that is done has written nothing behind the last block. *)
Theorem allgather_no_overrun : forall T (n ne : nat) dst (src : nat -> option (nat -> T)) k c p,
  0 < n -> rexec (bruck_sched n ne dst src) k c -> p < n ->
  l_rnd (r_loc c p) = sc_nr (bruck_sched n ne dst src) ->
  forall i, n * ne <= i -> bruck_finalize n ne p (l_mem (r_loc c p)) i = dst p i.
Proof.
  intros T n ne dst src k c p Hn Hx Hp Hr i Hi.
  rewrite (rounds_result _ (bruck_matched n ne dst src Hn) (bruck_no_race n ne dst src Hn) k c p Hx Hp Hr).
  rewrite bruck_nr by exact Hn.
  assert (Hpn : p * ne <= n * ne) by (apply Nat.mul_le_mono_r; lia).
  assert (HS : forall r, r <= log2_of n -> smem (bruck_sched n ne dst src) r p i = dst p i).
  { induction r as [|r IH]; intros Hrl.
    - change (smem (bruck_sched n ne dst src) 0 p) with (bruck_init ne p (dst p) (src p)). unfold bruck_init.
      assert (H1 : 1 * ne <= n * ne) by (apply Nat.mul_le_mono_r; lia).
      destruct (src p) as [b|]; [rewrite bwrite_out by (rewrite bread_length; lia); reflexivity|].
      destruct (p =? 0); [reflexivity|]. rewrite bwrite_out by (rewrite bread_length; lia). reflexivity.
    - rewrite smem_S. set (s := bruck_sched n ne dst src) in *. change (sc_post s r p (bmem s r p)) with (bmem s r p).
      unfold bmem, amem, s. rewrite bruck_from, bruck_in by (assumption || lia). fold s.
      change (sc_pre s r p (smem s r p)) with (smem s r p). pose proof (bruck_gap_lt n r ltac:(lia)) as Hg.
      rewrite bwrite_out; [apply IH; lia|]. right. rewrite firstn_length.
      apply Nat.le_trans with (ne * 2 ^ r + ne * Nat.min (2 ^ r) (n - 2 ^ r)); [lia|].
      rewrite <- Nat.mul_add_distr_l. apply Nat.le_trans with (ne * n); [apply Nat.mul_le_mono_l; lia|lia]. }
  unfold bruck_finalize. destruct (p =? 0); [apply HS; lia|].
  rewrite !bwrite_out by (rewrite bread_length; lia). apply HS. lia.
Qed.
Print Assumptions allgather_no_overrun.

(** The allgather never hangs and always ends. *)
Theorem allgather_terminates : forall T (n ne : nat) dst (src : nat -> option (nat -> T)) k c,
  0 < n -> rexec (bruck_sched n ne dst src) k c ->
  k <= 4 * log2_of n * n /\
  ((forall p, p < n -> l_rnd (r_loc c p) = log2_of n) \/ exists c', rstep (bruck_sched n ne dst src) c c').
Proof.
  intros T n ne dst src k c Hn Hx. split.
  - pose proof (rounds_bounded _ (bruck_matched n ne dst src Hn) (bruck_no_race n ne dst src Hn) k c Hx) as H.
    rewrite bruck_nr in H by exact Hn. exact H.
  - pose proof (rounds_progress _ (bruck_matched n ne dst src Hn) (bruck_no_race n ne dst src Hn) k c Hx) as H.
    rewrite bruck_nr in H by exact Hn. exact H.
Qed.
Print Assumptions allgather_terminates.

(** No receive writes past the caller's buffer of [n] blocks. *)
Theorem allgather_in_bounds : forall n ne p r x, 0 < n ->
  nth_error (bruck_dag n ne p) r = Some x ->
  x_so x + x_sn x <= n * ne /\ x_ro x + x_rn x <= n * ne /\ x_so x + x_sn x <= x_ro x.
Proof.
  intros n ne p r x Hn Hx.
  assert (Hr : r < log2_of n).
  { rewrite <- (bruck_dag_length n ne p Hn). apply nth_error_Some. rewrite Hx. discriminate. }
  rewrite bruck_dag_nth in Hx by assumption. injection Hx as <-. cbn [x_so x_sn x_ro x_rn].
  pose proof (bruck_gap_lt n r Hr).
  rewrite <- Nat.mul_add_distr_l, (Nat.mul_comm n ne), Nat.add_0_l.
  repeat split; apply Nat.mul_le_mono_l; lia.
Qed.
Print Assumptions allgather_in_bounds.

(** C78.  Barrier: a rank gets through only after every rank has entered.
    [entered] is: the rank has begun its first round. *)
Definition entered {St} (l : loc St) : Prop := 0 < l_rnd l \/ l_open l = true.

Lemma sent_open : forall T n ne dst (src : nat -> option (nat -> T)) k c q r,
  0 < n -> rexec (bruck_sched n ne dst src) k c -> q < n ->
  has_sent (r_loc c q) r -> r <= l_rnd (r_loc c q) /\ entered (r_loc c q).
Proof.
  intros T n ne dst src k c q r Hn Hx Hq [H|[H1 H2]]; unfold entered.
  - split; lia.
  - split; [lia|]. right.
    destruct (rinv_exec _ (bruck_matched n ne dst src Hn) (bruck_no_race n ne dst src Hn) k c Hx) as (I1 & _).
    destruct (I1 q Hq) as (_ & L2 & _). destruct (l_open (r_loc c q)); [reflexivity|].
    destruct (L2 eq_refl) as (H & _). congruence.
Qed.

Theorem barrier_separates : forall T n ne dst (src : nat -> option (nat -> T)) k c p,
  2 <= n -> rexec (bruck_sched n ne dst src) k c -> p < n ->
  l_rnd (r_loc c p) = sc_nr (bruck_sched n ne dst src) ->
  forall q, q < n -> entered (r_loc c q).
Proof.
  intros T n ne dst src k c p Hn Hx Hp Hr q Hq.
  assert (Hn0 : 0 < n) by lia.
  assert (Hkey : forall r a d, r <= log2_of n -> a < n -> r <= l_rnd (r_loc c a) ->
            entered (r_loc c a) -> d < 2 ^ r -> entered (r_loc c ((a + d) mod n))).
  { induction r as [|r IH]; intros a d Hrl Ha Hra Hea Hd.
    - cbn in Hd. replace (a + d) with a by lia. rewrite Nat.mod_small by exact Ha. exact Hea.
    - cbn [Nat.pow] in Hd. destruct (lt_dec d (2 ^ r)) as [Hlt|Hge]; [apply IH; auto; lia|].
      pose proof (rounds_causal _ (bruck_matched n ne dst src Hn0) (bruck_no_race n ne dst src Hn0)
                    k c a ((a + 2 ^ r) mod n) r Hx Ha Hra (bruck_from n ne dst src Hn0 r a ltac:(lia))) as Hs.
      assert (Hb : (a + 2 ^ r) mod n < n) by (apply Nat.mod_upper_bound; lia).
      destruct (sent_open T n ne dst src k c _ r Hn0 Hx Hb Hs) as (H1 & H2).
      pose proof (IH ((a + 2 ^ r) mod n) (d - 2 ^ r) ltac:(lia) Hb H1 H2 ltac:(lia)) as H3.
      rewrite Nat.add_mod_idemp_l in H3 by lia.
      replace (a + 2 ^ r + (d - 2 ^ r)) with (a + d) in H3 by lia. exact H3. }
  rewrite bruck_nr in Hr by exact Hn0.
  destruct (ctree_ok n) as (_ & P2 & _).
  assert (Hlog : 0 < log2_of n).
  { destruct (log2_of n) as [|z]; [cbn in P2; lia|lia]. }
  replace q with ((p + (q + n - p) mod n) mod n).
  - apply (Hkey (log2_of n)); auto; [lia|left; lia|].
    assert ((q + n - p) mod n < n) by (apply Nat.mod_upper_bound; lia). lia.
  - rewrite Nat.add_mod_idemp_r by lia. replace (p + (q + n - p)) with (q + 1 * n) by lia.
    rewrite Nat.mod_add by lia. apply Nat.mod_small. exact Hq.
Qed.
Print Assumptions barrier_separates.

(** C79.  Ring allgather.  Full claim: the result holds every rank's send
    buffer.  False when the send and receive buffers differ: the schedule never
    looks at the send buffer (nothing is copied by initBuffers), so the claim
    fails whenever the receive buffers do not already hold the contributions. *)
Definition ring_delivers (copied_in : bool) : Prop :=
  forall (n ne : nat) (dst : nat -> nat -> nat) (src : nat -> nat -> nat) k c p,
    0 < n -> rexec (ring_sched n ne dst) k c -> p < n ->
    l_rnd (r_loc c p) = n - 1 ->
    (copied_in = true -> forall j e, j < n -> e < ne -> dst j (j * ne + e) = src j e) ->
    forall j e, j < n -> e < ne -> l_mem (r_loc c p) (j * ne + e) = src j e.

Theorem ring_allgather_in_place_partial : forall T (n ne : nat) (dst : nat -> nat -> T) k c p,
  0 < n -> rexec (ring_sched n ne dst) k c -> p < n ->
  l_rnd (r_loc c p) = n - 1 ->
  forall j e, j < n -> e < ne -> l_mem (r_loc c p) (j * ne + e) = dst j (j * ne + e).
Proof.
  intros T n ne dst k c p Hn Hx Hp Hr j e Hj He.
  rewrite (rounds_result _ (ring_matched n ne dst Hn) (ring_no_race n ne dst Hn) k c p Hx Hp)
    by (rewrite ring_nr by exact Hn; exact Hr).
  rewrite ring_nr by exact Hn.
  assert (Hd : exists d, d <= n - 1 /\ (p + n - d) mod n = j).
  { destruct (le_dec j p) as [H|H].
    - exists (p - j). split; [lia|]. replace (p + n - (p - j)) with (j + 1 * n) by lia.
      rewrite Nat.mod_add by lia. apply Nat.mod_small. exact Hj.
    - exists (p + n - j). split; [lia|]. replace (p + n - (p + n - j)) with j by lia.
      apply Nat.mod_small. exact Hj. }
  destruct Hd as (d & Hd1 & Hd2). rewrite <- Hd2. apply ring_smem; assumption || lia.
Qed.
Print Assumptions ring_allgather_in_place_partial.

Theorem ring_allgather_terminates : forall T (n ne : nat) (dst : nat -> nat -> T) k c,
  0 < n -> rexec (ring_sched n ne dst) k c ->
  k <= 4 * (n - 1) * n /\
  ((forall p, p < n -> l_rnd (r_loc c p) = n - 1) \/ exists c', rstep (ring_sched n ne dst) c c').
Proof.
  intros T n ne dst k c Hn Hx. split.
  - pose proof (rounds_bounded _ (ring_matched n ne dst Hn) (ring_no_race n ne dst Hn) k c Hx) as H.
    rewrite ring_nr in H by exact Hn. exact H.
  - pose proof (rounds_progress _ (ring_matched n ne dst Hn) (ring_no_race n ne dst Hn) k c Hx) as H.
    rewrite ring_nr in H by exact Hn. exact H.
Qed.
Print Assumptions ring_allgather_terminates.

(** A complete run of two ranks, used as an example and as the witness. *)
Lemma ring_run2 : forall dst : nat -> nat -> nat,
  exists k c, rexec (ring_sched 2 1 dst) k c /\ l_rnd (r_loc c 0) = 1 /\ l_rnd (r_loc c 1) = 1.
Proof.
  intros dst.
  assert (H : forall k c, rexec (ring_sched 2 1 dst) k c -> forall m, m + k = 8 ->
    exists k' c', rexec (ring_sched 2 1 dst) k' c' /\ l_rnd (r_loc c' 0) = 1 /\ l_rnd (r_loc c' 1) = 1).
  { intros k c Hx m. revert k c Hx. induction m as [|m IH]; intros k c Hx Hk.
    - destruct (ring_allgather_terminates nat 2 1 dst k c ltac:(lia) Hx) as (_ & [H|(c' & H)]).
      + exists k, c. split; [exact Hx|]. split; apply H; lia.
      + pose proof (ring_allgather_terminates nat 2 1 dst (S k) c' ltac:(lia) (rxS _ _ _ _ Hx H)) as (Hb & _).
        cbn in Hb. lia.
    - destruct (ring_allgather_terminates nat 2 1 dst k c ltac:(lia) Hx) as (_ & [H|(c' & H)]).
      + exists k, c. split; [exact Hx|]. split; apply H; lia.
      + apply (IH (S k) c' (rxS _ _ _ _ Hx H)). lia. }
  apply (H 0 (rinit _) (rx0 _) 8). reflexivity.
Qed.

Theorem ring_allgather_refuted : ~ ring_delivers false.
Proof.
  intros H. destruct (ring_run2 (fun _ _ => 0)) as (k & c & Hx & H0 & _).
  pose proof (H 2 1 (fun _ _ => 0) (fun _ _ => 1) k c 0 ltac:(lia) Hx ltac:(lia) H0
    ltac:(discriminate) 0 0 ltac:(lia) ltac:(lia)) as Hbad.
  rewrite (ring_allgather_in_place_partial nat 2 1 _ k c 0 ltac:(lia) Hx ltac:(lia) H0 0 0
    ltac:(lia) ltac:(lia)) in Hbad. discriminate.
Qed.
Print Assumptions ring_allgather_refuted.

Theorem ring_allgather_copied_in_partial : ring_delivers true.
Proof.
  intros n ne dst src k c p Hn Hx Hp Hr Hc j e Hj He.
  rewrite (ring_allgather_in_place_partial nat n ne dst k c p Hn Hx Hp Hr j e Hj He).
  apply Hc; auto.
Qed.
Print Assumptions ring_allgather_copied_in_partial.

(** Examples.  The schedule of 5 ranks with blocks of 3: three rounds, the last
    one moves one block only. *)
Example bruck_dag_5 : bruck_dag 5 3 1 =
  [{| x_sp := 0; x_rp := 2; x_so := 0; x_sn := 3; x_ro := 3; x_rn := 3 |};
   {| x_sp := 4; x_rp := 3; x_so := 0; x_sn := 6; x_ro := 6; x_rn := 6 |};
   {| x_sp := 2; x_rp := 0; x_so := 0; x_sn := 3; x_ro := 12; x_rn := 3 |}].
Proof. reflexivity. Qed.

Example bruck_lockstep_5 :
  map (bruck_finalize 5 2 3 (smem (bruck_sched 5 2 (fun _ _ => 99)
        (fun p => Some (fun e => 10 * p + e))) 3 3)) (seq 0 10)
  = [0; 1; 10; 11; 20; 21; 30; 31; 40; 41].
Proof. vm_compute. reflexivity. Qed.

(** Hypotheses of the theorems are met by complete runs for every size. *)
Example allgather_run_exists : forall n ne dst (src : nat -> option (nat -> nat)), 0 < n ->
  exists k c, rexec (bruck_sched n ne dst src) k c /\ forall p, p < n -> l_rnd (r_loc c p) = log2_of n.
Proof.
  intros n ne dst src Hn.
  assert (H : forall m k c, rexec (bruck_sched n ne dst src) k c -> m + k = 4 * log2_of n * n ->
    exists k' c', rexec (bruck_sched n ne dst src) k' c' /\ forall p, p < n -> l_rnd (r_loc c' p) = log2_of n).
  { induction m as [|m IH]; intros k c Hx Hk.
    - destruct (allgather_terminates nat n ne dst src k c Hn Hx) as (_ & [H|(c' & H)]).
      + exists k, c. auto.
      + destruct (allgather_terminates nat n ne dst src (S k) c' Hn (rxS _ _ _ _ Hx H)) as (Hb & _). lia.
    - destruct (allgather_terminates nat n ne dst src k c Hn Hx) as (_ & [H|(c' & H)]).
      + exists k, c. auto.
      + apply (IH (S k) c' (rxS _ _ _ _ Hx H)). lia. }
  apply (H (4 * log2_of n * n) 0 (rinit _) (rx0 _)). lia.
Qed.
