(** Properties of job launching: C44, C45, C49, C68-C71. *)
From Coq Require Import List Arith Bool ZArith Lia Permutation Sorted.
From Verif Require Import ListFacts LnModel LnSpec LnProof LnLaunch LnTree.
Import ListNotations.

(** ** C44: no node belongs to two jobs *)

(** Both launchers. *)
Definition launcher (step : lstate -> levent -> option lstate) : Prop :=
  step = default_step \/ step = exclusive_step.

Lemma run_inv step num full es s : launcher step ->
  lrun step (linit num) es = Some s ->
  NoDup (map rq_aid (requested es)) ->
  (forall r, In r (requested es) -> stays_inside (rq_map r)) ->
  (full = true -> forall r, In r (requested es) -> uses_all r) ->
  exists R, inv num full R s.
Proof.
  intros [->| ->] H ND Ins Full.
  - apply (default_run num full es [] (linit num) s (inv_init num full) H Ins Full). exact ND.
  - destruct (exclusive_run num full es [] (linit num) s (xinv_init num full) H Ins Full ND) as (R & X & _).
    exists R. apply X.
Qed.

Lemma held_in R j x : In j R -> In x (fst (snd j)) -> In x (held R).
Proof. intros. apply in_flat_map. exists j. auto. Qed.

(** At every moment the nodes of two running jobs are disjoint, and disjoint from
    the free pool: any allocators, mappers that stay inside the allocation. *)
Theorem C44_no_sharing_partial :
  forall step num es s, launcher step ->
  lrun step (linit num) es = Some s ->
  NoDup (map rq_aid (requested es)) ->
  (forall r, In r (requested es) -> stays_inside (rq_map r)) ->
  (forall a1 al1 m1 a2 al2 m2, a1 <> a2 ->
     running (history s) a1 al1 m1 -> running (history s) a2 al2 m2 -> disjoint al1 al2) /\
  (forall a al m, running (history s) a al m ->
     disjoint al (available s) /\ (forall n, In n al -> n < num) /\ (forall n, In n m -> In n al)).
Proof.
  intros step num es s L H ND Ins.
  destruct (run_inv step num false es s L H ND Ins) as (R & I); [discriminate|].
  pose proof (inv_nodup _ _ _ _ I) as N. split.
  - intros a1 al1 m1 a2 al2 m2 D R1 R2 x X1 X2.
    apply (inv_hist _ _ _ _ I) in R1. apply (inv_hist _ _ _ _ I) in R2.
    apply nodup_app_iff in N. destruct N as (N & _).
    apply in_split in R1. destruct R1 as (p & q & ->).
    assert (K: In (a2, (al2, m2)) (p ++ q)).
    { apply in_app_or in R2. apply in_or_app. destruct R2 as [R2|[R2|R2]]; auto. congruence. }
    assert (Q: Permutation (held (p ++ (a1, (al1, m1)) :: q)) (al1 ++ held (p ++ q))).
    { unfold held. rewrite !flat_map_app. simpl. rewrite !app_assoc. apply Permutation_app_tail.
      apply Permutation_app_comm. }
    apply (Permutation_NoDup Q) in N. apply nodup_app_iff in N. destruct N as (_ & _ & N).
    apply (N x X1). apply (held_in _ _ x K X2).
  - intros a al m Rn. apply (inv_hist _ _ _ _ I) in Rn. split; [|split].
    + intros x X1 X2. apply nodup_app_iff in N. destruct N as (_ & _ & N).
      apply (N x); auto. apply (held_in _ _ x Rn X1).
    + intros x X1. apply (inv_range _ _ _ _ I). apply in_or_app. left. apply (held_in _ _ x Rn X1).
    + intros x X1. apply (inv_inside _ _ _ _ I _ Rn x X1).
Qed.
Print Assumptions C44_no_sharing_partial.

(** When no job is running, every node is free again: requests that use all
    their nodes. *)
Theorem C44_all_freed_partial :
  forall step num es s, launcher step ->
  lrun step (linit num) es = Some s ->
  NoDup (map rq_aid (requested es)) ->
  (forall r, In r (requested es) -> uses_all r) ->
  (forall a al m, ~ running (history s) a al m) ->
  available s = seq 0 num.
Proof.
  intros step num es s L H ND U None.
  destruct (run_inv step num true es s L H ND) as (R & I).
  - intros r Hr. destruct (U r Hr) as (_ & U2 & _). destruct (rq_map r); simpl; auto.
  - auto.
  - destruct R as [|[a [al m]] R].
    + destruct (inv_full _ _ _ _ I eq_refl) as [F _]. simpl in F.
      apply sorted_ext; [apply I|apply seq_sorted|]. intro x. split.
      * apply Permutation_in, F.
      * apply Permutation_in. symmetry. exact F.
    + exfalso. apply (None a al m). apply (inv_hist _ _ _ _ I). simpl. auto.
Qed.
Print Assumptions C44_all_freed_partial.

(** With a mapper that reads node ids from a file, a node ends up with two jobs:
    job 2 is placed on job 1's node, and its end frees that node. *)
Theorem C44_sharing_refuted :
  exists num es s, lrun default_step (linit num) es = Some s /\
    NoDup (map rq_aid (requested es)) /\
    exists a1 al1 m1 a2 al2 m2, a1 <> a2 /\
      running (history s) a1 al1 m1 /\ running (history s) a2 al2 m2 /\ ~ disjoint al1 al2.
Proof.
  set (es := [ELaunch (Req 1 1 1 AFirst MBlock); ELaunch (Req 2 1 1 AFirst (MNodeId 4 [0]));
              EStop 2; ELaunch (Req 3 1 1 AFirst MBlock)]).
  exists 4, es.
  destruct (lrun default_step (linit 4) es) as [s|] eqn:E; [|vm_compute in E; discriminate].
  exists s. split; [reflexivity|]. split.
  - vm_compute. repeat constructor; simpl; intuition discriminate.
  - vm_compute in E. injection E as <-. exists 1, [0], [0], 3, [0], [0]. simpl history.
    split; [discriminate|]. split; [|split].
    + exists [], [Started 2 [1] [0]; Stopped 2; Started 3 [0] [0]]. split; [reflexivity|].
      simpl. intuition discriminate.
    + exists [Started 1 [0] [0]; Started 2 [1] [0]; Stopped 2], []. auto.
    + intro D. apply (D 0); simpl; auto.
Qed.
Print Assumptions C44_sharing_refuted.

(** Nodes are lost for good: the round robin mapper leaves a node unused when the
    rank count is not a multiple of the ranks per node, and the end of the job
    frees only nodes with ranks. *)
Theorem C44_leak_refuted :
  exists num es s, lrun default_step (linit num) es = Some s /\
    (forall r, In r (requested es) -> stays_inside (rq_map r)) /\
    (forall a al m, ~ running (history s) a al m) /\
    exists n, n < num /\ ~ In n (available s).
Proof.
  set (es := [ELaunch (Req 1 3 2 AFirst MRoundRobin); EStop 1]).
  exists 4, es.
  destruct (lrun default_step (linit 4) es) as [s|] eqn:E; [|vm_compute in E; discriminate].
  exists s. split; [reflexivity|]. split; [|split].
  - intros r [<-|[]]. exact I.
  - vm_compute in E. injection E as <-. simpl history. intros a al m (x & y & Eq & N).
    destruct x as [|h x]; simpl in Eq; injection Eq.
    + intros <- <- <- <-. apply N. simpl. auto.
    + destruct x as [|h2 x]; [discriminate|]. destruct x; discriminate.
  - vm_compute in E. injection E as <-. exists 1. split; [lia|]. simpl. intuition discriminate.
Qed.
Print Assumptions C44_leak_refuted.

(** The hypotheses of the C44 theorems hold of a real run: two jobs at once, then
    both end, on four nodes. *)
Example C44_run : exists s,
  lrun default_step (linit 4)
    [ELaunch (Req 1 3 2 AFirst MBlock); ELaunch (Req 2 2 1 (AStride 1) (MRandom (fun i => i) true));
     EStop 1; ELaunch (Req 3 2 2 (ARandom (fun i => i * 7 + 1)) MBlock); EStop 2; EStop 3] = Some s /\
  available s = [0; 1; 2; 3] /\
  history s = [Started 1 [0; 1] [0; 0; 1]; Started 2 [2; 3] [2; 3]; Stopped 1;
               Started 3 [1] [1; 1]; Stopped 2; Stopped 3].
Proof.
  destruct (lrun _ _ _) as [s|] eqn:E; [|vm_compute in E; discriminate].
  exists s. split; [reflexivity|]. vm_compute in E. injection E as <-. auto.
Qed.

(** ** C45: task placement *)

(** Block, random and (for whole multiples) round robin mapping place every rank. *)
Theorem C45_block_places_all :
  forall ppn nproc nodes m, NoDup nodes -> block_map ppn nproc nodes = Some m ->
  placed nproc ppn nodes m /\
  (forall r, r < nproc -> nth r m 0 = nth (r / ppn) nodes 0).
Proof.
  intros ppn nproc nodes m ND H. split; [apply (block_placed _ _ _ _ ND H)|].
  unfold block_map in H. destruct (validate_nproc _ _ _) as [np|] eqn:V; [|discriminate].
  apply validate_spec in V. destruct V as (-> & A & B & C). injection H as <-.
  intros r Hr. rewrite block_loop_nth; cbn [length]; try lia. rewrite Nat.sub_0_r. reflexivity.
Qed.
Print Assumptions C45_block_places_all.

Theorem C45_random_places_all :
  forall draw smp ppn nproc nodes m, NoDup nodes ->
  random_map draw smp ppn nproc nodes = Some m -> placed nproc ppn nodes m.
Proof. exact random_placed. Qed.
Print Assumptions C45_random_places_all.

Theorem C45_round_robin_places_all_partial :
  forall ppn nproc nodes m, NoDup nodes -> nproc mod ppn = 0 ->
  rr_map ppn nproc nodes = Some m ->
  placed nproc ppn nodes m /\
  (forall r, r < nproc -> nth r m 0 = nth (r mod (nproc / ppn)) nodes 0).
Proof.
  intros ppn nproc nodes m ND D H. split; [apply (rr_placed _ _ _ _ ND D H)|].
  unfold rr_map in H. destruct (validate_nproc _ _ _) as [np|] eqn:V; [|discriminate].
  apply validate_spec in V. destruct V as (-> & A & B & C). injection H as <-.
  assert (Q: nproc = ppn * (nproc / ppn)) by (rewrite (Nat.div_mod nproc ppn) at 1; lia).
  assert (L: length (firstn (nproc / ppn) nodes) = nproc / ppn) by (rewrite firstn_length; nia).
  intros r Hr. rewrite concat_repeat_nth by (rewrite L; lia). rewrite L.
  assert (K: r mod (nproc / ppn) < nproc / ppn) by (apply Nat.mod_upper_bound; nia).
  rewrite <- (firstn_skipn (nproc / ppn) nodes) at 2. rewrite app_nth1 by lia. reflexivity.
Qed.
Print Assumptions C45_round_robin_places_all_partial.

(** The mappers refuse exactly when the ranks do not fit. *)
Theorem C45_refusal : forall ppn nproc nodes,
  (block_map ppn nproc nodes = None <-> ppn * length nodes = 0 \/ ppn * length nodes < nproc).
Proof.
  intros. unfold block_map, validate_nproc.
  destruct (length nodes =? 0) eqn:A; [apply Nat.eqb_eq in A; rewrite A; split; auto; intros; left; lia|].
  destruct (ppn =? 0) eqn:B; [apply Nat.eqb_eq in B; subst; split; auto; intros; left; lia|].
  apply Nat.eqb_neq in A, B.
  destruct (ppn * length nodes <? nproc) eqn:C.
  - apply Nat.ltb_lt in C. split; auto.
  - apply Nat.ltb_ge in C. split; [discriminate|]. intros [K|K]; [|lia]. destruct ppn, (length nodes); simpl in *; lia.
Qed.
Print Assumptions C45_refusal.

(** Three ranks, two per node, two nodes: round robin places only two ranks. *)
Theorem C45_round_robin_refuted :
  exists ppn nproc nodes m, NoDup nodes /\ rr_map ppn nproc nodes = Some m /\
    length m < nproc.
Proof.
  exists 2, 3, [0; 1], [0; 0]. split; [|split; [reflexivity|simpl; lia]].
  repeat constructor; simpl; intuition discriminate.
Qed.
Print Assumptions C45_round_robin_refuted.

(** The file mappers ignore the allocation. *)
Theorem C45_file_mapper_refuted :
  exists file nproc ppn nodes m, map_ranks (MNodeId 8 file) ppn nproc nodes = Some m /\
    (exists r, r < nproc /\ ~ In (nth r m 0) nodes) /\
    (exists n, count_occ Nat.eq_dec m n > ppn).
Proof.
  exists [5; 5], 2, 1, [0; 1], [5; 5]. split; [reflexivity|]. split.
  - exists 0. split; [lia|]. simpl. intuition discriminate.
  - exists 5. simpl. lia.
Qed.
Print Assumptions C45_file_mapper_refuted.

Example C45_block_run : block_map 2 5 [3; 7; 9] = Some [3; 3; 7; 7; 9].
Proof. reflexivity. Qed.
Example C45_random_run : random_map (fun i => i + 1) false 2 5 [3; 7; 9] = Some [3; 7; 7; 9; 3].
Proof. reflexivity. Qed.
Example C45_round_robin_run : rr_map 2 6 [3; 7; 9; 11] = Some [3; 7; 9; 3; 7; 9].
Proof. reflexivity. Qed.

(** ** C49: start messages *)

(** However the network orders start messages: no rank is started twice, only
    existing ranks are, every step starts one more rank, and when no message is
    left every rank has been started. *)
Theorem C49_every_rank_started_once :
  forall n s, 0 < n -> oreach n s ->
  NoDup (started s) /\ (forall r, In r (started s) -> r < n) /\
  (in_flight s = [] -> Permutation (started s) (seq 0 n)).
Proof.
  intros n s P H. pose proof (oreach_inv n s P H) as I. split; [|split].
  - pose proof (o_nodup _ _ I) as N. apply nodup_app_iff in N. apply N.
  - intros r Hr. apply (o_range _ _ I). apply in_or_app. auto.
  - apply (oinv_done n s I).
Qed.
Print Assumptions C49_every_rank_started_once.

(** No execution has more than [n] deliveries, so start-up ends. *)
Theorem C49_terminates : forall n s, 0 < n -> oreach n s -> length (started s) <= n.
Proof.
  intros n s P H. destruct (C49_every_rank_started_once n s P H) as (A & B & _).
  rewrite <- (seq_length n 0). apply NoDup_incl_length; [exact A|].
  intros r Hr. apply in_seq. specialize (B r Hr). lia.
Qed.
Print Assumptions C49_terminates.

(** The destinations fit the array [int ranks[64]] of outcastAppStart. *)
Theorem C49_array_bound : forall n r, n <= 2 ^ 31 -> length (forward_to r n) <= 64.
Proof.
  intros n r H. unfold forward_to.
  pose proof (fwd_length n (pow2_at_least n 1 n) r 0) as A.
  assert (B: pow2_at_least n 1 n <= 31).
  { apply pow2_small; [lia|]. rewrite Nat.mul_1_l. exact H. }
  lia.
Qed.
Print Assumptions C49_array_bound.

Example C49_tree : map (fun r => forward_to r 6) [0; 1; 2; 3; 4; 5] = [[4; 2; 1]; []; [3]; []; [5]; []].
Proof. reflexivity. Qed.

Example C49_full_run : oreach 3 (OSt [] [1; 2; 0]).
Proof.
  eapply oreach_step; [eapply oreach_step; [eapply oreach_step; [constructor|]|]|].
  - exact (ostep_deliver 3 [] 0 [] []).
  - exact (ostep_deliver 3 [] 2 [1] [0]).
  - exact (ostep_deliver 3 [] 1 [] [2; 0]).
Qed.

(** ** C68: the node-to-rank table *)

(** [nodeToRanks(n)] lists exactly the ranks placed on [n], in rank order. *)
Theorem C68_node_to_rank_exact :
  forall num m n, n < num ->
  nth n (node_to_rank 0 m (repeat [] num)) [] =
  filter (fun r => nth r m 0 =? n) (seq 0 (length m)).
Proof.
  intros num m n H. rewrite node_to_rank_nth by (rewrite repeat_length; exact H).
  replace (nth n (repeat [] num) []) with (@nil nat).
  - simpl. rewrite <- (map_id (filter _ _)) at 2. apply map_ext. reflexivity.
  - symmetry. apply (repeat_spec num []). apply nth_In. rewrite repeat_length. exact H.
Qed.
Print Assumptions C68_node_to_rank_exact.

Example C68_run : node_to_rank 0 [2; 0; 2; 1] (repeat [] 4) = [[1]; [3]; [0; 2]; []].
Proof. reflexivity. Qed.

(** ** C69: the exclusive launcher *)

(** At most one job runs, jobs start in the order requested, none is dropped, and
    none waits while the machine is idle. *)
Theorem C69_exclusive_fifo :
  forall num es s, lrun exclusive_step (linit num) es = Some s ->
  NoDup (map rq_aid (requested es)) ->
  (forall r, In r (requested es) -> stays_inside (rq_map r)) ->
  (forall a1 al1 m1 a2 al2 m2,
     running (history s) a1 al1 m1 -> running (history s) a2 al2 m2 -> a1 = a2) /\
  started_ids (history s) ++ map rq_aid (pending s) = map rq_aid (requested es) /\
  (pending s <> [] -> exists a al m, running (history s) a al m).
Proof.
  intros num es s H ND Ins.
  destruct (exclusive_run num false es [] (linit num) s (xinv_init num false) H Ins) as (R & X & O);
    [discriminate|exact ND|]. simpl in O.
  assert (One: forall j1 j2, In j1 R -> In j2 R -> fst j1 = fst j2).
  { destruct (active s) as [a|] eqn:A.
    - pose proof (x_busy _ _ _ _ X a A) as B. intros j1 j2 H1 H2.
      apply (in_map fst) in H1. apply (in_map fst) in H2. rewrite B in *.
      destruct H1 as [H1|[]], H2 as [H2|[]]. congruence.
    - destruct (x_idle _ _ _ _ X A) as [-> _]. intros j1 j2 []. }
  split; [|split; [exact O|]].
  - intros a1 al1 m1 a2 al2 m2 R1 R2.
    apply (inv_hist _ _ _ _ (x_inv _ _ _ _ X)) in R1. apply (inv_hist _ _ _ _ (x_inv _ _ _ _ X)) in R2.
    apply (One _ _ R1 R2).
  - intro P. destruct (active s) as [a|] eqn:A.
    + pose proof (x_busy _ _ _ _ X a A) as B. destruct R as [|[a' [al m]] R]; [discriminate|].
      exists a', al, m. apply (inv_hist _ _ _ _ (x_inv _ _ _ _ X)). simpl. auto.
    + destruct (x_idle _ _ _ _ X A) as [_ E]. contradiction.
Qed.
Print Assumptions C69_exclusive_fifo.

Example C69_run : exists s,
  lrun exclusive_step (linit 3)
    [ELaunch (Req 1 3 1 AFirst MBlock); ELaunch (Req 2 2 1 AFirst MBlock);
     ELaunch (Req 3 1 1 AFirst MBlock); EStop 1] = Some s /\
  started_ids (history s) = [1; 2] /\ map rq_aid (pending s) = [3].
Proof.
  destruct (lrun _ _ _) as [s|] eqn:E; [|vm_compute in E; discriminate].
  exists s. split; [reflexivity|]. vm_compute in E. injection E as <-. auto.
Qed.

(** ** C70: allocators return what was asked for *)

(** First-available, random, strided and dragonfly-greedy allocation return exactly
    the number of distinct available nodes asked for, or refuse. *)
Theorem C70_allocation_exact :
  forall a nn avail al, choosing a -> StronglySorted lt avail ->
  allocate a nn avail = Some al ->
  NoDup al /\ incl al avail /\ length al = nn.
Proof.
  intros a nn avail al C S H. destruct (allocate_choosing a nn avail al S C H) as (A & B & L).
  split; [apply sorted_nodup, A|]. auto.
Qed.
Print Assumptions C70_allocation_exact.

(** First-available refuses only when too few nodes are free, and takes the lowest
    free ids. *)
Theorem C70_first_available_exact :
  forall nn avail, StronglySorted lt avail ->
  first_available nn avail = if length avail <? nn then None else Some (firstn nn avail).
Proof. exact first_available_spec. Qed.
Print Assumptions C70_first_available_exact.

(** The Cartesian allocator returns as many nodes as its sizes multiply to,
    whatever the job asked for. *)
Theorem C70_cart_refuted :
  exists addr sizes offsets nn avail al, StronglySorted lt avail /\
    allocate (ACart addr sizes offsets) nn avail = Some al /\ incl al avail /\ length al <> nn.
Proof.
  exists (fun c => nth 0 c 0), [2], [0], 1, [0; 1; 2; 3], [0; 1].
  split; [apply (seq_sorted 0 4)|]. split; [reflexivity|]. split; [|simpl; lia].
  intros x [<-|[<-|[]]]; simpl; auto.
Qed.
Print Assumptions C70_cart_refuted.

Example C70_run :
  allocate AFirst 2 [1; 4; 6] = Some [1; 4] /\
  allocate (AStride 2) 2 [1; 4; 6] = Some [1; 6] /\
  allocate (AGreedy 2 2 2 2) 3 [0; 1; 2; 3; 5; 6] = Some [0; 1; 5] /\
  allocate (ARandom (fun i => 0)) 2 [1; 4; 6] = Some [4; 6].
Proof. repeat split; reflexivity. Qed.

(** ** C71: the fan-in tree mirrors the fan-out tree *)

(** It does not: rank 0 of two is told to receive from nobody and to send one
    message that was never written. *)
Theorem C71_incast_refuted :
  exists me n, In 1 (forward_to me n) /\
    incast_config me n = ([], [(0, 1)], 1, 0).
Proof. exists 0, 2. split; [simpl; auto|reflexivity]. Qed.
Print Assumptions C71_incast_refuted.

(** What does hold: the values written to [to_recv] are the fan-out
    destinations, and the value written to [to_send] is the fan-out parent. Missing:
    the counts and the positions in [to_recv]. *)
Lemma incast_recv n : forall k me off c,
  map snd (snd (fst (incast me n k off c))) = fwd me n k off.
Proof.
  induction k as [|k IH]; intros me off c; cbn [incast fwd]; [reflexivity|]. cbv zeta.
  set (x := if me mod 2 ^ S k =? 0 then _ else _).
  assert (X: map snd (snd (fst x)) =
    if me mod 2 ^ S k =? 0 then if off + 2 ^ k <? n then [off + 2 ^ k] else [] else []).
  { unfold x. destruct (me mod 2 ^ S k =? 0); [destruct (off + 2 ^ k <? n); reflexivity|].
    destruct (me mod 2 ^ S k =? 2 ^ k); reflexivity. }
  destruct x as [[s1 r1] c1]. cbn [fst snd] in X.
  destruct (off + 2 ^ k <=? me).
  - specialize (IH me (off + 2 ^ k) c1). destruct (incast me n k (off + 2 ^ k) c1) as [[s2 r2] c2].
    cbn [fst snd] in *. rewrite map_app, X, IH. reflexivity.
  - specialize (IH me off c1). destruct (incast me n k off c1) as [[s2 r2] c2].
    cbn [fst snd] in *. rewrite map_app, X, IH. reflexivity.
Qed.

Lemma incast_send n : forall k me off c i p, off mod 2 ^ k = 0 -> off <= me < off + 2 ^ k ->
  In (i, p) (fst (fst (incast me n k off c))) -> exists j, me = p + 2 ^ j /\ p mod 2 ^ S j = 0.
Proof.
  induction k as [|k IH]; intros me off c i p A B; cbn [incast]; [intros []|]. cbv zeta.
  pose proof (pow_pos k) as Pk.
  assert (D: 2 ^ S k = 2 * 2 ^ k) by apply Nat.pow_succ_r'.
  pose proof (mod_off me off (S k) A B) as M. rewrite M.
  pose proof A as A0.
  apply Nat.mod_divide in A; [|lia]. destruct A as [q Eo].
  assert (A1: off mod 2 ^ k = 0) by (rewrite Eo, D; replace (q * (2 * 2 ^ k)) with (2 * q * 2 ^ k) by lia; apply Nat.mod_mul; lia).
  assert (A2: (off + 2 ^ k) mod 2 ^ k = 0).
  { replace (off + 2 ^ k) with (off + 1 * 2 ^ k) by lia. rewrite Nat.mod_add by lia. exact A1. }
  set (x := if me - off =? 0 then _ else _).
  assert (X: In (i, p) (fst (fst x)) -> exists j, me = p + 2 ^ j /\ p mod 2 ^ S j = 0).
  { unfold x. destruct (me - off =? 0); [destruct (off + 2 ^ k <? n); intros []|].
    destruct (me - off =? 2 ^ k) eqn:E; [|intros []]. apply Nat.eqb_eq in E.
    intros [H|[]]. injection H as _ <-. exists k. split; [lia|exact A0]. }
  destruct x as [[s1 r1] c1]. cbn [fst snd] in X.
  destruct (off + 2 ^ k <=? me) eqn:L; [apply Nat.leb_le in L|apply Nat.leb_gt in L].
  - specialize (IH me (off + 2 ^ k) c1 i p A2 ltac:(lia)).
    destruct (incast me n k (off + 2 ^ k) c1) as [[s2 r2] c2].
    cbn [fst snd] in *. rewrite in_app_iff. intros [H|H]; auto.
  - specialize (IH me off c1 i p A1 ltac:(lia)). destruct (incast me n k off c1) as [[s2 r2] c2].
    cbn [fst snd] in *. rewrite in_app_iff. intros [H|H]; auto.
Qed.

Theorem C71_incast_mirrors_partial : forall me n snds rcvs ns nr, me < n ->
  incast_config me n = (snds, rcvs, ns, nr) ->
  map snd rcvs = forward_to me n /\
  (forall i p, In (i, p) snds -> In me (forward_to p n)).
Proof.
  intros me n snds rcvs ns nr L H. unfold incast_config in H.
  pose proof (pow2_enough n 1 n ltac:(lia) ltac:(lia)) as E. rewrite Nat.mul_1_l in E.
  pose proof (incast_recv n (pow2_at_least n 1 n) me 0 0) as R.
  pose proof (incast_send n (pow2_at_least n 1 n) me 0 0) as S.
  destruct (incast me n (pow2_at_least n 1 n) 0 0) as [[a b] c].
  injection H as <- <- <- <-. cbn [fst snd] in *. split; [exact R|].
  intros i p Hp. destruct (S i p) as (j & E1 & E2); auto.
  - apply Nat.mod_0_l. pose proof (pow_pos (pow2_at_least n 1 n)). lia.
  - lia.
  - pose proof (pow_pos j). apply forward_spec; [lia|]. split; [exists j; auto|exact L].
Qed.
Print Assumptions C71_incast_mirrors_partial.

Example C71_run : incast_config 2 4 = ([(0, 0)], [(1, 3)], 2, 0).
Proof. reflexivity. Qed.
