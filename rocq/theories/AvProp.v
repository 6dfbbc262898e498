(** C98: allgatherv. *)
From Coq Require Import List Arith Lia Bool.
From Verif Require Import RdModel RdProof AgModel AgProof AvModel AvProof.
Import ListNotations.

(** Blocks of different size follow each other in the order of the ranks: where
    the block of rank [j] begins. *)
Definition displ (counts : nat -> nat) (j : nat) : nat := list_sum (map counts (seq 0 j)).

Lemma displ_sum : forall counts j, av_sum counts j = displ counts j.
Proof.
  intros counts j. unfold displ. induction j as [|j IH]; [reflexivity|]. rewrite seq_S, map_app, list_sum_app.
  cbn [av_sum map list_sum Nat.add fold_right]. rewrite IH. cbn. lia.
Qed.

(** What the user hands in: element [e] of rank [j]'s contribution is element
    [e] of its send buffer or, in place, of its block of the receive buffer. *)
Definition contribution_v {T} (counts : nat -> nat) (dst : nat -> nat -> T) (src : nat -> option (nat -> T))
  (j e : nat) : T :=
  match src j with None => dst j (displ counts j + e) | Some b => b e end.

(** For every number of ranks, all block sizes (empty ones included) and all
    contents, in place or not, and every interleaving of the actions: a rank that
    is done holds every rank's contribution in that rank's block, and nothing
    behind the last block was changed. *)
Theorem allgatherv_delivers_all_blocks : forall T (n : nat) counts dst (src : nat -> option (nat -> T)) k c p,
  0 < n -> rexec (av_sched n counts dst src) k c -> p < n ->
  l_rnd (r_loc c p) = sc_nr (av_sched n counts dst src) ->
  (forall j e, j < n -> e < counts j ->
    av_finalize n counts p (l_mem (r_loc c p)) (displ counts j + e) = contribution_v counts dst src j e) /\
  (forall i, displ counts n <= i -> av_finalize n counts p (l_mem (r_loc c p)) i = dst p i).
Proof.
  intros T n counts dst src k c p Hn Hx Hp Hr.
  rewrite (rounds_result _ (av_matched n counts dst src Hn) (av_no_race n counts dst src Hn) k c p Hx Hp Hr).
  rewrite av_nr by exact Hn. destruct (ctree_ok n) as (_ & P2 & _). split.
  - intros j e Hj He. unfold contribution_v. rewrite <- displ_sum.
    apply (av_final n counts dst src Hn); try assumption.
    intros b x Hb Hxx. apply av_smem; try assumption; lia.
  - intros i Hi. rewrite <- displ_sum in Hi. unfold av_finalize, av_offset, av_total.
    pose proof (av_sum_mono n counts Hn p n ltac:(lia)).
    rewrite <- (av_outside n counts dst src Hn (log2_of n) p i ltac:(lia) Hp Hi).
    destruct (p =? 0); [reflexivity|]. rewrite !bwrite_out by (rewrite bread_length; lia). reflexivity.
Qed.
Print Assumptions allgatherv_delivers_all_blocks.

Theorem allgatherv_terminates : forall T (n : nat) counts dst (src : nat -> option (nat -> T)) k c,
  0 < n -> rexec (av_sched n counts dst src) k c ->
  k <= 4 * log2_of n * n /\
  ((forall p, p < n -> l_rnd (r_loc c p) = log2_of n) \/ exists c', rstep (av_sched n counts dst src) c c').
Proof.
  intros T n counts dst src k c Hn Hx. split.
  - pose proof (rounds_bounded _ (av_matched n counts dst src Hn) (av_no_race n counts dst src Hn) k c Hx) as H.
    rewrite av_nr in H by exact Hn. exact H.
  - pose proof (rounds_progress _ (av_matched n counts dst src Hn) (av_no_race n counts dst src Hn) k c Hx) as H.
    rewrite av_nr in H by exact Hn. exact H.
Qed.
Print Assumptions allgatherv_terminates.

(** Both ends of a message agree on its length; sends and receives stay inside
    the result, and a receive never lands on what the rank sends in that round. *)
Theorem allgatherv_sizes_agree : forall n counts p r x, 0 < n -> p < n ->
  nth_error (av_dag n counts p) r = Some x ->
  x_so x + x_sn x <= displ counts n /\ x_ro x + x_rn x <= displ counts n /\ x_so x + x_sn x <= x_ro x /\
  exists y, x_rp x < n /\ nth_error (av_dag n counts (x_rp x)) r = Some y /\ x_sp y = p /\ x_sn y = x_rn x.
Proof.
  intros n counts p r x Hn Hp Hx. destruct (av_dag_form n counts Hn p Hp) as (HL & HF).
  assert (Hr : r < log2_of n) by (rewrite <- HL; apply nth_error_Some; rewrite Hx; discriminate).
  rewrite (HF r Hr) in Hx. injection Hx as <-. cbn [x_so x_sn x_ro x_rn x_rp]. rewrite <- displ_sum.
  pose proof (bruck_gap_lt n r Hr) as Hg. set (q := (p + 2 ^ r) mod n).
  assert (Hq : q < n) by (apply Nat.mod_upper_bound; lia).
  pose proof (av_recv_mono n counts Hn p (Nat.min (2 ^ r) (n - 2 ^ r)) (2 ^ r) ltac:(lia)) as H1.
  pose proof (av_recv_mono n counts Hn p (2 ^ r) n ltac:(lia)) as H2. rewrite (av_recv_all n counts Hn p Hp) in H2.
  pose proof (av_recv_mono n counts Hn q (Nat.min (2 ^ r) (n - 2 ^ r)) (n - 2 ^ r) ltac:(lia)) as H3.
  pose proof (av_recv_rest n counts Hn p (2 ^ r) Hp ltac:(lia)) as H4. fold q in H4. unfold av_total in H4.
  split; [lia|]. split; [lia|]. split; [lia|]. eexists. split; [exact Hq|].
  split; [exact (proj2 (av_dag_form n counts Hn q Hq) r Hr)|]. cbn [x_sp x_sn]. split; [|reflexivity].
  unfold q. apply mod_add_sub; lia.
Qed.
Print Assumptions allgatherv_sizes_agree.

(** Five ranks with blocks of 3, 0, 2, 1 and 4 elements. *)
Definition ex_counts (j : nat) : nat := nth j [3; 0; 2; 1; 4] 0.
Example ex_displ : map (displ ex_counts) (seq 0 6) = [0; 3; 3; 5; 6; 10].
Proof. reflexivity. Qed.
Example av_dag_5 : av_dag 5 ex_counts 2 =
  [{| x_sp := 1; x_rp := 3; x_so := 0; x_sn := 2; x_ro := 2; x_rn := 1 |};
   {| x_sp := 0; x_rp := 4; x_so := 0; x_sn := 3; x_ro := 3; x_rn := 7 |};
   {| x_sp := 3; x_rp := 1; x_so := 0; x_sn := 2; x_ro := 10; x_rn := 0 |}].
Proof. reflexivity. Qed.
Example av_lockstep_5 :
  map (av_finalize 5 ex_counts 3 (smem (av_sched 5 ex_counts (fun _ _ => 99)
        (fun p => Some (fun e => 10 * p + e))) 3 3)) (seq 0 11)
  = [0; 1; 2; 20; 21; 30; 40; 41; 42; 43; 99].
Proof. vm_compute. reflexivity. Qed.
Example allgatherv_run_exists : forall n counts dst (src : nat -> option (nat -> nat)), 0 < n ->
  exists k c, rexec (av_sched n counts dst src) k c /\ forall p, p < n -> l_rnd (r_loc c p) = log2_of n.
Proof.
  intros n counts dst src Hn.
  assert (G : forall m k c, rexec (av_sched n counts dst src) k c -> m + k = 4 * log2_of n * n ->
    exists k' c', rexec (av_sched n counts dst src) k' c' /\ forall p, p < n -> l_rnd (r_loc c' p) = log2_of n).
  { induction m as [|m IH]; intros k c Hx Hk.
    - destruct (allgatherv_terminates nat n counts dst src k c Hn Hx) as (_ & [H|(c' & H)]); [exists k, c; auto|].
      pose proof (allgatherv_terminates nat n counts dst src (S k) c' Hn (rxS _ _ _ _ Hx H)) as (Hb & _). lia.
    - destruct (allgatherv_terminates nat n counts dst src k c Hn Hx) as (_ & [H|(c' & H)]); [exists k, c; auto|].
      apply (IH (S k) c' (rxS _ _ _ _ Hx H)). lia. }
  apply (G (4 * log2_of n * n) 0 (rinit _) (rx0 _)). lia.
Qed.
