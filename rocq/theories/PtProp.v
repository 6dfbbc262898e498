(** C12: the partition of switches. *)
From Coq Require Import List Arith Bool Lia.
From Verif Require Import PtModel.
Import ListNotations.

(** A (rank, thread) of the machine. *)
Definition valid (nproc nthread : nat) (w : nat * nat) : Prop := fst w < nproc /\ snd w < nthread.

(** The number of switches of a worker. *)
Definition load (part : nat -> nat * nat) (nsw : nat) (w : nat * nat) : nat :=
  length (filter (fun i => (fst (part i) =? fst w) && (snd (part i) =? snd w)) (seq 0 nsw)).

Lemma per_up n k : 0 < k -> n <= per_worker_up n k * k /\ (0 < n -> 0 < per_worker_up n k) /\
  per_worker_up n k * k < n + k.
Proof.
  intro K. unfold per_worker_up. pose proof (Nat.div_mod n k ltac:(lia)) as D.
  pose proof (Nat.mod_upper_bound n k ltac:(lia)).
  destruct (n mod k =? 0) eqn:E; [apply Nat.eqb_eq in E|apply Nat.eqb_neq in E]; repeat split; try nia.
Qed.

Lemma worker_bound n k i : 0 < k -> i < n -> i / per_worker_up n k < k.
Proof.
  intros K I. destruct (per_up n k K) as (A & B & _). apply Nat.div_lt_upper_bound; [specialize (B ltac:(lia)); lia|lia].
Qed.

Lemma worker_to_valid np nt w : 0 < nt -> w < np * nt -> valid np nt (worker_to nt w).
Proof.
  intros T W. split; simpl.
  - apply Nat.div_lt_upper_bound; lia.
  - apply Nat.mod_upper_bound. lia.
Qed.

Lemma worker_to_inj nt a b : 0 < nt -> worker_to nt a = worker_to nt b -> a = b.
Proof.
  intros T E. unfold worker_to in E. injection E as E1 E2.
  rewrite (Nat.div_mod a nt), (Nat.div_mod b nt) by lia. rewrite E1, E2. reflexivity.
Qed.

Theorem C12_block_valid :
  forall nsw np nt i, 0 < np -> 0 < nt -> i < nsw -> valid np nt (block_part nsw np nt i).
Proof.
  intros nsw np nt i P T I. apply worker_to_valid; [exact T|]. apply worker_bound; [nia|exact I].
Qed.
Print Assumptions C12_block_valid.

(** Contiguous: a worker's switches are an interval. *)
Theorem C12_block_contiguous :
  forall nsw np nt i j k, 0 < np -> 0 < nt -> i <= j -> j <= k -> k < nsw ->
  block_part nsw np nt i = block_part nsw np nt k -> block_part nsw np nt j = block_part nsw np nt i.
Proof.
  intros nsw np nt i j k P T IJ JK K E. unfold block_part in *. apply worker_to_inj in E; [|exact T].
  destruct (per_up nsw (np * nt) ltac:(nia)) as (_ & B & _). specialize (B ltac:(lia)).
  set (per := per_worker_up nsw (np * nt)) in *. f_equal.
  pose proof (Nat.div_le_mono i j per ltac:(lia) IJ). pose proof (Nat.div_le_mono j k per ltac:(lia) JK). lia.
Qed.
Print Assumptions C12_block_contiguous.

Lemma count_block : forall m per w a, 0 < per ->
  length (filter (fun i => i / per =? w) (seq a m)) <= per /\
  (a <= w * per -> (w + 1) * per <= a + m -> length (filter (fun i => i / per =? w) (seq a m)) = per).
Proof.
  intros m per w a P.
  assert (G: forall m a, length (filter (fun i => i / per =? w) (seq a m)) =
    Nat.min (a + m) ((w + 1) * per) - Nat.max a (w * per)).
  { clear m a. induction m as [|m IH]; intro a; [cbn [seq filter length]; lia|]. cbn [seq filter].
    pose proof (Nat.div_mod a per ltac:(lia)) as D. pose proof (Nat.mod_upper_bound a per ltac:(lia)) as U.
    destruct (a / per =? w) eqn:E; [apply Nat.eqb_eq in E|apply Nat.eqb_neq in E]; cbn [length]; rewrite IH.
    - assert (w * per <= a < (w + 1) * per) by nia. lia.
    - assert (a < w * per \/ (w + 1) * per <= a).
      { destruct (Nat.lt_trichotomy (a / per) w) as [L|[L|L]]; [left|contradiction|right]; nia. }
      lia. }
  rewrite G. split; lia.
Qed.

Lemma load_block nsw np nt w : 0 < nt -> w < np * nt ->
  load (block_part nsw np nt) nsw (worker_to nt w) =
  length (filter (fun i => i / per_worker_up nsw (np * nt) =? w) (seq 0 nsw)).
Proof.
  intros T W. unfold load. f_equal. apply filter_ext. intro i. unfold block_part.
  set (v := i / per_worker_up nsw (np * nt)). destruct (v =? w) eqn:E.
  - apply Nat.eqb_eq in E. rewrite E, !Nat.eqb_refl. reflexivity.
  - apply Nat.eqb_neq in E. apply andb_false_iff. simpl.
    destruct (v / nt =? w / nt) eqn:E1; [right|left; reflexivity]. apply Nat.eqb_neq. intro E2.
    apply Nat.eqb_eq in E1. apply E, (worker_to_inj nt); [exact T|]. unfold worker_to. congruence.
Qed.

(** No worker has more than the rounded-up average, and all workers before the last
    nonempty one are full: what "balanced" comes down to. *)
Theorem C12_block_load_partial :
  forall nsw np nt w, 0 < np -> 0 < nt -> 0 < nsw -> w < np * nt ->
  let ld := load (block_part nsw np nt) nsw in
  (ld (worker_to nt w) - 1) * (np * nt) < nsw /\
  (forall w', w < w' -> w' < np * nt -> 0 < ld (worker_to nt w') ->
     ld (worker_to nt w) = (nsw + np * nt - 1) / (np * nt)).
Proof.
  intros nsw np nt w P T N W ld. destruct (per_up nsw (np * nt) ltac:(nia)) as (A & B & C). specialize (B N).
  unfold ld. set (per := per_worker_up nsw (np * nt)) in *. split.
  - rewrite load_block by assumption. destruct (count_block nsw per w 0 B) as [L _]. fold per.
    assert ((length (filter (fun i => i / per =? w) (seq 0 nsw)) - 1) * (np * nt) <= (per - 1) * (np * nt)) by nia.
    nia.
  - intros w' L W' H. rewrite load_block in * by assumption. fold per in H |- *.
    assert (Q: (w + 1) * per <= nsw).
    { destruct (filter (fun i => i / per =? w') (seq 0 nsw)) as [|x l] eqn:E; [simpl in H; lia|].
      assert (X: In x (filter (fun i => i / per =? w') (seq 0 nsw))) by (rewrite E; left; reflexivity).
      apply filter_In in X. destruct X as [X1 X2]. apply in_seq in X1. apply Nat.eqb_eq in X2.
      pose proof (Nat.div_mod x per ltac:(lia)). nia. }
    destruct (count_block nsw per w 0 B) as [_ F]. rewrite F by lia.
    apply (Nat.div_unique _ _ per (nsw + np * nt - 1 - per * (np * nt))); nia.
Qed.
Print Assumptions C12_block_load_partial.

(** But it is not balanced: 5 switches on 4 workers give loads 2, 2, 1, 0. *)
Theorem C12_block_balanced_refuted :
  exists nsw np nt w w', valid np nt w /\ valid np nt w' /\ np * nt < nsw /\
    load (block_part nsw np nt) nsw w' + 2 <= load (block_part nsw np nt) nsw w.
Proof. exists 5, 2, 2, (0, 0), (1, 1). repeat split; simpl; try lia. vm_compute. lia. Qed.
Print Assumptions C12_block_balanced_refuted.

(** The occupied-block strategy fails whenever it has to place empty switches: switches
    stay unassigned, ranks are invalid, or it divides by zero. *)
Theorem C12_occupied_refuted :
  (exists nsw occ np nt arr, occ_part nsw occ np nt = Some arr /\ 0 < np /\ 0 < nt /\ exists i, i < nsw /\ nth i arr None = None) /\
  (exists nsw occ np nt arr i w, occ_part nsw occ np nt = Some arr /\ 0 < np /\ 0 < nt /\ nth i arr None = Some w /\ ~ valid np nt w) /\
  (exists nsw occ np nt, np <= occ /\ occ <= nsw /\ 0 < np /\ 0 < nt /\ occ_part nsw occ np nt = None).
Proof.
  split; [|split].
  - exists 4, 2, 2, 1. eexists. split; [vm_compute; reflexivity|]. split; [lia|]. split; [lia|]. exists 3. split; [lia|reflexivity].
  - exists 7, 4, 2, 1. eexists. exists 2. eexists. split; [vm_compute; reflexivity|]. split; [lia|]. split; [lia|].
    split; [reflexivity|]. intros [V _]. simpl in V. lia.
  - exists 3, 2, 2, 1. repeat split; try lia.
Qed.
Print Assumptions C12_occupied_refuted.

Lemma set_nth_length {A} : forall (l : list A) i x, length (set_nth l i x) = length l.
Proof. induction l; intros [|i] x; simpl; auto. Qed.

Lemma nth_set_nth {A} : forall (l : list A) i j x d, i < length l ->
  nth j (set_nth l i x) d = if j =? i then x else nth j l d.
Proof.
  induction l as [|a l IH]; intros [|i] [|j] x d H; simpl in *; try lia; auto. apply IH. lia.
Qed.

Lemma fill_spec nt per : forall n arr, n <= length arr -> length (fill nt per n arr) = length arr /\
  forall j, nth j (fill nt per n arr) None = if j <? n then Some (worker_to nt (j / per)) else nth j arr None.
Proof.
  unfold fill. induction n as [|n IH]; intros arr L; [split; [reflexivity|intro; reflexivity]|].
  rewrite seq_S, fold_left_app. cbn [fold_left Nat.add]. destruct (IH arr ltac:(lia)) as [L1 N1]. split.
  - rewrite set_nth_length. exact L1.
  - intro j. rewrite nth_set_nth by (rewrite L1; lia). rewrite N1.
    destruct (Nat.eqb_spec j n) as [->|E].
    + assert (n <? S n = true) as -> by (apply Nat.ltb_lt; lia). reflexivity.
    + destruct (Nat.ltb_spec j n), (Nat.ltb_spec j (S n)); try lia; reflexivity.
Qed.

(** It is the block partition when every switch is occupied. *)
Theorem C12_occupied_partial :
  forall nsw np nt, 0 < np -> 0 < nt -> np <= nsw ->
  exists arr, occ_part nsw nsw np nt = Some arr /\ length arr = nsw /\
    forall i, i < nsw -> nth i arr None = Some (block_part nsw np nt i).
Proof.
  intros nsw np nt P T L. unfold occ_part. rewrite Nat.sub_diag.
  assert (nsw <? np = false) as -> by (apply Nat.ltb_ge; lia). rewrite Nat.ltb_irrefl. cbn [orb].
  rewrite andb_false_r. unfold fill at 1. cbn [seq fold_left].
  destruct (fill_spec nt (per_worker_up nsw (np * nt)) nsw (repeat None nsw)) as [L1 N1]; [rewrite repeat_length; lia|].
  eexists. split; [reflexivity|]. split; [rewrite L1, repeat_length; reflexivity|].
  intros i I. rewrite N1. apply Nat.ltb_lt in I. rewrite I. reflexivity.
Qed.
Print Assumptions C12_occupied_partial.

Example C12_blocks : map (block_part 10 2 2) (seq 0 10) =
  [(0,0); (0,0); (0,0); (0,1); (0,1); (0,1); (1,0); (1,0); (1,0); (1,1)].
Proof. reflexivity. Qed.
