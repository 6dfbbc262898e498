(** C124, C125: collectives on communicators with SMP sub-communicators. *)
From Coq Require Import List Arith ZArith Lia Bool Sorting.Sorted.
From Verif Require Import CoModel CoProp RdModel RdProof AgModel AgProof AgProp AaModel AaProof AaProp
  PhModel BcModel GaModel ArModel ArProp SmModel SmProof.
Import ListNotations.
Local Open Scope nat_scope.

(** A job of [nranks] ranks, [node g] being the node of rank [g]; [members] are the ranks of
    the communicator in communicator order, and each has company on its node. *)
Definition smp_comm (nranks : nat) (node : nat -> nat) (members : list nat) : Prop :=
  NoDup members /\ (forall g, In g members -> g < nranks) /\ members <> [] /\
  forall g, In g members -> exists h, In h members /\ h <> g /\ node h = node g.

(** All nodes hold equally many ranks of the communicator. *)
Definition evenly (node : nat -> nat) (members : list nat) : Prop :=
  forall g h, In g members -> In h members ->
    length (filter (fun x => node x =? node g) members) = length (filter (fun x => node x =? node h) members).

(** Communicator order is rank order and a node holds consecutive ranks. *)
Definition consecutive (node : nat -> nat) (members : list nat) : Prop :=
  StronglySorted lt members /\
  forall x y z, In x members -> In y members -> In z members -> x < y < z -> node x = node z -> node y = node x.

Definition many_nodes (node : nat -> nat) (members : list nat) : Prop :=
  exists g h, In g members /\ In h members /\ node g <> node h.

(** Results of the collectives as MPI defines them. *)
Definition gathers {T} (members : list nat) (ne : nat) (src : nat -> nat -> T) (fin : nat -> bufs T) : Prop :=
  forall g j e, In g members -> j < length members -> e < ne ->
    b_dst (fin g) (j * ne + e) = src (nth j members 0) e.
Definition transposes {T} (members : list nat) (ne : nat) (src : nat -> nat -> T) (fin : nat -> bufs T) : Prop :=
  forall r j e, r < length members -> j < length members -> e < ne ->
    b_dst (fin (nth r members 0)) (j * ne + e) = src (nth j members 0) (r * ne + e).
Definition reduces {T} (op : T -> T -> T) (members : list nat) (ne : nat) (src : nat -> nat -> T) (fin : nat -> bufs T) : Prop :=
  forall g e, In g members -> e < ne ->
    b_dst (fin g) e = reduction op (fun j => src (nth j members 0) e) (length members).

Lemma on_node_len : forall node members n, on_node node members n = length (filter (fun x => node x =? n) members).
Proof. reflexivity. Qed.

Lemma evenly_even : forall node members, evenly node members -> even node members.
Proof. intros node members E g h G H. apply E; auto. Qed.

Lemma smp_paired : forall nranks node members, smp_comm nranks node members -> paired node members.
Proof.
  intros nranks node members (ND & IN & _ & H) g G. destruct (H g G) as (h & H1 & H2 & H3). rewrite on_node_len.
  assert (L : length [g; h] <= length (filter (fun x => node x =? node g) members)).
  { apply NoDup_incl_length.
    - constructor; [intros [->|[]]; congruence|]. constructor; [intros []|constructor].
    - intros x [<-|[<-|[]]]; apply filter_In; (split; [assumption|]); apply Nat.eqb_eq; auto. }
  cbn in L. lia.
Qed.

Lemma owners_two : forall nranks node members, smp_comm nranks node members -> many_nodes node members ->
  2 <= length (owners nranks node members).
Proof.
  intros nranks node members (ND & IN & _ & _) (g & h & G & H & N).
  destruct (own_spec nranks node members IN g G) as (A1 & A2 & A3).
  destruct (own_spec nranks node members IN h H) as (B1 & B2 & B3).
  assert (L : length [own nranks node members g; own nranks node members h] <= length (owners nranks node members)).
  { apply NoDup_incl_length.
    - constructor; [intros [Q|[]]; congruence|]. constructor; [intros []|constructor].
    - intros x [<-|[<-|[]]]; apply owners_in; auto. }
  cbn in L. exact L.
Qed.

(** Two blocks in ascending order, the first below the second. *)
Lemma sorted_app : forall a b : list nat, StronglySorted lt a -> StronglySorted lt b ->
  (forall x y, In x a -> In y b -> x < y) -> StronglySorted lt (a ++ b).
Proof.
  induction a as [|x a IH]; intros b A B H; cbn; [exact B|].
  inversion A as [|? ? A1 A2]; subst. constructor.
  - apply IH; auto. intros; apply H; auto. now right.
  - rewrite Forall_forall in *. intros y Y. apply in_app_or in Y. destruct Y as [Y|Y]; [auto|].
    apply H; [now left|exact Y].
Qed.

Lemma by_node_consecutive : forall nranks node members, smp_comm nranks node members -> consecutive node members ->
  by_node nranks node members = members.
Proof.
  intros nranks node members (ND & IN & _) (SO & CO).
  apply sorted_eq; [|exact SO|intro x; apply by_node_in; auto].
  unfold by_node.
  assert (H : forall l, StronglySorted lt l -> (forall g, In g l -> In g (owners nranks node members)) ->
    StronglySorted lt (flat_map (subset nranks node members) l)).
  { induction l as [|g l IH]; intros L Q; cbn [flat_map]; [constructor|].
    inversion L as [|? ? L1 L2]; subst. apply sorted_app.
    - apply (subset_sorted nranks node members).
    - apply IH; [exact L1|]. intros; apply Q; now right.
    - intros x y X Y. apply in_flat_map in Y. destruct Y as (h & H1 & H2).
      apply (subset_in nranks node members IN) in X, H2.
      destruct X as [X1 X2]. destruct H2 as [Y1 Y2].
      rewrite Forall_forall in L2. pose proof (L2 h H1) as GH.
      pose proof (Q g (or_introl eq_refl)) as OG. pose proof (Q h (or_intror H1)) as OH.
      apply owners_in in OG, OH. destruct OG as [G1 G2], OH as [K1 K2].
      assert (NE : node g <> node h).
      { intro E. assert (g = h) by (apply (srank_inj nranks node members IN); auto; congruence). lia. }
      pose proof (proj1 (srank_zero nranks node members IN h K1) K2 y Y1 Y2) as HY.
      destruct (lt_dec x y) as [|XY]; [assumption|exfalso].
      assert (x <> y) by congruence.
      apply NE. rewrite <- Y2. symmetry. apply (CO g y x); auto; lia. }
  apply H; [|auto]. apply filter_sorted, SO.
Qed.

(** C124. Nodes filled evenly, at least two of them: the allgather can end, and whatever
    the interleaving, when it has, every rank holds the contributions node by node - the
    nodes in the order of their first ranks in the communicator, within a node by rank -
    and nothing is written past the last block. *)
Theorem smp_allgather_result : forall T nranks node members ne (op : T -> T -> T) src work aux ini,
  smp_comm nranks node members -> evenly node members -> many_nodes node members ->
  (exists fin, smp_allgather_ended nranks node members ne op src work aux ini fin) /\
  forall fin, smp_allgather_ended nranks node members ne op src work aux ini fin ->
  forall g, In g members ->
  (forall j e, j < length members -> e < ne ->
     b_dst (fin g) (j * ne + e) = src (nth j (by_node nranks node members) 0) e) /\
  (forall x, length members * ne <= x -> b_dst (fin g) x = b_dst (ini g) x).
Proof.
  intros T nranks node members ne op src work aux ini C E M.
  pose proof (smp_paired _ _ _ C) as P. pose proof (owners_two _ _ _ C M) as O. destruct C as (ND & IN & NE & _).
  split; [apply smp_allgather_can_end; auto using evenly_even|].
  intros fin F g G. apply (smp_allgather_blocks nranks node members ND IN ne op src work aux P (evenly_even _ _ E) ini fin F g G).
Qed.
Print Assumptions smp_allgather_result.

(** If nodes hold consecutive ranks the result is that of MPI_Allgather. *)
Theorem smp_allgather_partial : forall T nranks node members ne (op : T -> T -> T) src work aux ini,
  smp_comm nranks node members -> evenly node members -> many_nodes node members -> consecutive node members ->
  (exists fin, smp_allgather_ended nranks node members ne op src work aux ini fin) /\
  forall fin, smp_allgather_ended nranks node members ne op src work aux ini fin -> gathers members ne src fin.
Proof.
  intros T nranks node members ne op src work aux ini C E M S'.
  destruct (smp_allgather_result T nranks node members ne op src work aux ini C E M) as (H1 & H2).
  split; [exact H1|]. intros fin F g j e G Hj He.
  rewrite (proj1 (H2 fin F g G) j e Hj He), by_node_consecutive by assumption. reflexivity.
Qed.
Print Assumptions smp_allgather_partial.

(** In any other case some contents come out wrong. *)
Theorem smp_allgather_only_consecutive : forall nranks node members ne work aux ini fin,
  smp_comm nranks node members -> evenly node members -> many_nodes node members -> 1 <= ne ->
  smp_allgather_ended nranks node members ne Nat.add (fun g _ => g) work aux ini fin ->
  gathers members ne (fun g _ => g) fin -> by_node nranks node members = members.
Proof.
  intros nranks node members ne work aux ini fin C E M Hne F H.
  destruct (smp_allgather_result nat nranks node members ne Nat.add (fun g _ => g) work aux ini C E M) as (_ & R).
  destruct C as (ND & IN & NE & _). apply nth_ext with (d := 0) (d' := 0); [apply by_node_length; auto|].
  intros j Hj. rewrite by_node_length in Hj by auto.
  destruct members as [|g0 l] eqn:EM; [congruence|]. rewrite <- EM in *.
  assert (G : In g0 members) by (rewrite EM; now left).
  rewrite <- (H g0 j 0 G Hj ltac:(lia)), (proj1 (R fin F g0 G) j 0 Hj ltac:(lia)). reflexivity.
Qed.
Print Assumptions smp_allgather_only_consecutive.

(** Ranks dealt out round robin: ranks 1 and 2 change places in everybody's result. *)
Definition robin (g : nat) : nat := g mod 2.
Lemma robin_comm : smp_comm 4 robin [0; 1; 2; 3] /\ evenly robin [0; 1; 2; 3] /\ many_nodes robin [0; 1; 2; 3].
Proof.
  split; [|split].
  - split; [apply (seq_NoDup 4 0)|]. split; [intros g G; cbn in G; lia|]. split; [discriminate|].
    intros g G. cbn in G. destruct G as [<-|[<-|[<-|[<-|[]]]]];
      [exists 2|exists 3|exists 0|exists 1]; cbn; (split; [lia|]; split; [discriminate|reflexivity]).
  - intros g h G H. cbn in G, H. destruct G as [<-|[<-|[<-|[<-|[]]]]], H as [<-|[<-|[<-|[<-|[]]]]]; reflexivity.
  - exists 0, 1. cbn. split; [lia|]. split; [lia|discriminate].
Qed.

Theorem smp_allgather_order_refuted :
  ~ (forall nranks node members ne src work aux ini fin,
       smp_comm nranks node members -> evenly node members -> many_nodes node members ->
       smp_allgather_ended nranks node members ne Nat.add src work aux ini fin -> gathers members ne src fin).
Proof.
  intro H. destruct robin_comm as (C & E & M).
  destruct (smp_allgather_result nat 4 robin [0; 1; 2; 3] 1 Nat.add (fun g _ => g) (fun _ _ => 0) (fun _ => 0)
              (fun _ => {| b_dst := fun _ => 0; b_tmp := fun _ => 0 |}) C E M) as ((fin & F) & _).
  pose proof (smp_allgather_only_consecutive 4 robin [0; 1; 2; 3] 1 _ _ _ fin C E M ltac:(lia) F
    (H _ _ _ _ _ _ _ _ _ C E M F)) as Q.
  vm_compute in Q. discriminate Q.
Qed.
Print Assumptions smp_allgather_order_refuted.

Example smp_robin_order : by_node 4 robin [0; 1; 2; 3] = [0; 2; 1; 3].
Proof. reflexivity. Qed.

(** A job on one node only: no allgather ever ends. The owner's collective among the
    owners has nothing to do, so nobody learns that it is done. *)
Theorem smp_allgather_one_node_refuted : forall T nranks node members ne (op : T -> T -> T) src work aux ini fin,
  smp_comm nranks node members -> (forall g h, In g members -> In h members -> node g = node h) ->
  ~ smp_allgather_ended nranks node members ne op src work aux ini fin.
Proof.
  intros T nranks node members ne op src work aux ini fin C O (pre & post & W).
  pose proof (smp_paired _ _ _ C) as P. destruct C as (ND & IN & NE & _).
  assert (E : even node members) by (intros g h G H; rewrite (O g h G H); reflexivity).
  destruct members as [|g0 l] eqn:EM; [congruence|]. rewrite <- EM in *.
  assert (G : In g0 members) by (rewrite EM; now left).
  destruct (own_spec nranks node members IN g0 G) as (A1 & A2 & A3).
  destruct (index_of members (own nranks node members g0) A1) as (r & R & Er).
  specialize (W r R). cbv beta in W. rewrite <- Er in A3.
  rewrite (ag_stages_owner nranks node members ND IN ne r E R A3) in W. cbn [walk] in W.
  destruct W as (_ & _ & _ & (_ & x & c & Hnr & _) & _).
  destruct (see_owner nranks node members r R A3) as (k & EO & K). cbn [party] in Hnr. rewrite EO in Hnr.
  assert (L : length (owners nranks node members) = 1).
  { pose proof (owners_nodup nranks node members ND) as NO.
    destruct (owners nranks node members) as [|a [|b t]] eqn:Q; [destruct k; discriminate|reflexivity|exfalso].
    assert (Ha : In a (owners nranks node members)) by (rewrite Q; now left).
    assert (Hb : In b (owners nranks node members)) by (rewrite Q; right; now left).
    apply owners_in in Ha, Hb. destruct Ha as [Ha1 Ha2], Hb as [Hb1 Hb2].
    assert (a = b) by (apply (srank_inj nranks node members IN); auto; congruence).
    subst b. inversion NO as [|? ? N1 _]; subst. apply N1. now left. }
  rewrite L in Hnr. cbn in Hnr. lia.
Qed.
Print Assumptions smp_allgather_one_node_refuted.

(** Nodes filled unevenly: no allgather ever ends. The owners go for the allgather over
    all ranks, the other ranks for the one within the node. *)
Theorem smp_allgather_uneven_refuted : forall T nranks node members ne (op : T -> T -> T) src work aux ini fin,
  smp_comm nranks node members -> ~ evenly node members ->
  ~ smp_allgather_ended nranks node members ne op src work aux ini fin.
Proof.
  intros T nranks node members ne op src work aux ini fin C U (pre & post & W).
  pose proof (smp_paired _ _ _ C) as P. destruct C as (ND & IN & NE & CO).
  destruct members as [|g0 l] eqn:EM; [congruence|]. rewrite <- EM in *.
  assert (G : In g0 members) by (rewrite EM; now left).
  destruct (own_spec nranks node members IN g0 G) as (A1 & A2 & A3).
  set (o := own nranks node members g0) in *.
  destruct (CO o A1) as (h & H1 & H2 & H3).
  destruct (index_of members h H1) as (r & R & Er).
  assert (NZ : smp_rank nranks node members (nth r members 0) <> 0).
  { intro Q. rewrite Er in Q. apply H2. apply (srank_inj nranks node members IN); auto; congruence. }
  specialize (W r R). cbv beta in W. rewrite (ag_stages_other nranks node members ne r NZ) in W. cbn [walk] in W.
  destruct W as (_ & (J & _) & _). cbn [dense party] in J. specialize (J o).
  destruct J as (r' & R' & Er' & K).
  { change (In o (subset nranks node members (nth r members 0))). apply (subset_in nranks node members IN).
    split; [exact A1|]. rewrite Er. auto. }
  unfold allgather_stages in K. rewrite (see_unbalanced nranks node members ND IN) in K.
  - destruct K as [K|[]]. discriminate.
  - exact U.
  - rewrite Er'. exact A3.
Qed.
Print Assumptions smp_allgather_uneven_refuted.

(** C125. SMP alltoall: wherever the ranks are, ranks of one node end with one and the same
    result, so that some contents come out wrong on every node; and it does end. *)
Theorem smp_alltoall_refuted : forall nranks node members ne work aux ini,
  smp_comm nranks node members -> evenly node members -> many_nodes node members -> 1 <= ne ->
  (exists fin, smp_alltoall_ended nranks node members ne Nat.add (fun _ x => x) work aux ini fin) /\
  forall fin, smp_alltoall_ended nranks node members ne Nat.add (fun _ x => x) work aux ini fin ->
    ~ transposes members ne (fun _ x => x) fin.
Proof.
  intros nranks node members ne work aux ini C E M Hne.
  pose proof (smp_paired _ _ _ C) as P. pose proof (owners_two _ _ _ C M) as O. destruct C as (ND & IN & NE & CO).
  split; [apply smp_alltoall_can_end; auto using evenly_even|].
  intros fin F H.
  destruct members as [|g0 l] eqn:EM; [congruence|]. rewrite <- EM in *.
  assert (G : In g0 members) by (rewrite EM; now left).
  destruct (CO g0 G) as (h & H1 & H2 & H3).
  destruct (index_of members g0 G) as (r & R & Er). destruct (index_of members h H1) as (r' & R' & Er').
  pose proof (smp_alltoall_same_on_node nranks node members ND IN ne Nat.add _ work aux P (evenly_even _ _ E) ini fin F
                g0 h G H1 ltac:(auto) 0 ltac:(nia)) as S'.
  rewrite <- Er, <- Er' in S'.
  pose proof (H r 0 0 R ltac:(lia) ltac:(lia)) as Q1. pose proof (H r' 0 0 R' ltac:(lia) ltac:(lia)) as Q2.
  cbn [Nat.mul Nat.add] in Q1, Q2. rewrite Q1, Q2 in S'. apply H2.
  assert (r = r') by nia. subst r'. congruence.
Qed.
Print Assumptions smp_alltoall_refuted.

(** What ranks of a node share, in general. *)
Theorem smp_alltoall_shared : forall T nranks node members ne (op : T -> T -> T) src work aux ini fin,
  smp_comm nranks node members -> evenly node members ->
  smp_alltoall_ended nranks node members ne op src work aux ini fin ->
  forall g h x, In g members -> In h members -> node g = node h -> x < length members * ne ->
    b_dst (fin g) x = b_dst (fin h) x.
Proof.
  intros T nranks node members ne op src work aux ini fin C E F g h x G H N Hx.
  pose proof (smp_paired _ _ _ C) as P. destruct C as (ND & IN & _).
  apply (smp_alltoall_same_on_node nranks node members ND IN ne op src work aux P (evenly_even _ _ E) ini fin F g h G H N x Hx).
Qed.
Print Assumptions smp_alltoall_shared.

(** intraDst has room for as many blocks of [ne] as the node has ranks; what the second
    rank of the node sent ends up behind it. *)
Theorem smp_alltoall_overrun_refuted : forall T nranks node members ne (op : T -> T -> T) src work aux r joined pre post,
  smp_comm nranks node members -> 1 <= ne -> r < length members ->
  (forall h, In h members -> node h = node (nth r members 0) -> nth r members 0 <= h) ->
  let v := seen nranks node members r in
  stage_ends members ne op src work aux r v KGatherIn joined pre post ->
  let room := ne * length (v_smp v) in
  exists q, In q members /\ q <> nth r members 0 /\ b_tmp post room = src q 0.
Proof.
  intros T nranks node members ne op src work aux r joined pre post C Hne R Low v Hst room.
  pose proof (smp_paired _ _ _ C) as P. destruct C as (ND & IN & _).
  assert (G : In (nth r members 0) members) by (apply nth_In, R).
  assert (Z0 : smp_rank nranks node members (nth r members 0) = 0) by (apply (srank_zero nranks node members IN); auto).
  pose proof (sub_len nranks node members ND IN P _ G) as L.
  destruct (gather_in_stage nranks node members ND IN ne op src work aux P r joined pre post R Z0 Hst) as (_ & H).
  exists (nth 1 (subset nranks node members (nth r members 0)) 0).
  assert (In1 : In (nth 1 (subset nranks node members (nth r members 0)) 0) (subset nranks node members (nth r members 0))) by (apply nth_In; lia).
  split; [apply (subset_in nranks node members IN) in In1; tauto|]. split.
  - pose proof (srank_nth nranks node members IN _ G) as K. rewrite Z0 in K.
    intro Q. pose proof (subset_nodup nranks node members (nth r members 0)) as N. 
    assert (K' : nth_error (subset nranks node members (nth r members 0)) 1 = Some (nth r members 0)).
    { rewrite (nth_error_nth' _ 0) by lia. now rewrite Q. }
    rewrite NoDup_nth_error in N. specialize (N 0 1 ltac:(lia) ltac:(congruence)). discriminate.
  - unfold room, v. change (v_smp (seen nranks node members r)) with (subset nranks node members (nth r members 0)). rewrite <- (H 1 0 ltac:(lia) ltac:(nia)). f_equal. lia.
Qed.
Print Assumptions smp_alltoall_overrun_refuted.

(** SMP allreduce: the call reports completion at once and nothing was reduced. *)
Theorem smp_allreduce_idle : forall T nranks node members ne (op : T -> T -> T) src work aux ini fin,
  NoDup members -> smp_allreduce_ended nranks node members ne op src work aux ini fin ->
  forall g, In g members -> fin g = ini g.
Proof.
  intros T nranks node members ne op src work aux ini fin ND (A & pre & post & W) g G.
  destruct (index_of members g G) as (r & R & <-). specialize (A r R). specialize (W r R). cbv beta in W.
  assert (S' : allreduce_stages ne r (seen nranks node members r) = Some [KNothing]).
  { unfold allreduce_stages in *. destruct (Nat.eqb r _) eqn:Q; destruct (has_owner _) eqn:HO; cbn [andb negb] in *;
      try congruence; reflexivity. }
  rewrite S' in W. cbn [walk] in W. destruct W as (W1 & (_ & W2) & W3). congruence.
Qed.
Print Assumptions smp_allreduce_idle.

Definition halves (g : nat) : nat := g / 2.
Lemma halves_comm : smp_comm 4 halves [0; 1; 2; 3] /\ evenly halves [0; 1; 2; 3] /\ many_nodes halves [0; 1; 2; 3] /\
  consecutive halves [0; 1; 2; 3].
Proof.
  split; [|split; [|split; [|split]]].
  - split; [apply (seq_NoDup 4 0)|]. split; [intros g G; cbn in G; lia|]. split; [discriminate|].
    intros g G. cbn in G. destruct G as [<-|[<-|[<-|[<-|[]]]]];
      [exists 1|exists 0|exists 3|exists 2]; cbn; (split; [lia|]; split; [discriminate|reflexivity]).
  - intros g h G H. cbn in G, H. destruct G as [<-|[<-|[<-|[<-|[]]]]], H as [<-|[<-|[<-|[<-|[]]]]]; reflexivity.
  - exists 0, 2. cbn. split; [lia|]. split; [lia|discriminate].
  - apply (seq_sorted 4 0).
  - intros x y z X Y Z H N. unfold halves in *.
    pose proof (Nat.div_le_mono x y 2 ltac:(lia) ltac:(lia)). pose proof (Nat.div_le_mono y z 2 ltac:(lia) ltac:(lia)). lia.
Qed.

(** Two ranks on each of two nodes, contributing 1 each: the call ends, with 0. *)
Theorem smp_allreduce_refuted : exists nranks node members ini fin,
  smp_comm nranks node members /\ evenly node members /\ many_nodes node members /\ consecutive node members /\
  smp_allreduce_ended nranks node members 1 Nat.add (fun _ _ => 1) (fun _ _ => 0) (fun _ => 0) ini fin /\
  ~ reduces Nat.add members 1 (fun _ _ => 1) fin.
Proof.
  set (b := fun _ : nat => {| b_dst := fun _ : nat => 0; b_tmp := fun _ => 0 |}).
  exists 4, halves, [0; 1; 2; 3], b, b.
  destruct halves_comm as (C & E & M & S'). split; [exact C|]. split; [exact E|]. split; [exact M|]. split; [exact S'|].
  split.
  - split.
    + intros r R. cbn in R. do 4 (destruct r as [|r]; [vm_compute; discriminate|]). lia.
    + exists (fun _ => b), (fun _ => b). intros r R. cbn in R.
      do 4 (destruct r as [|r]; [vm_compute; repeat split|]). lia.
  - intro H. specialize (H 0 0 ltac:(now left) ltac:(lia)). vm_compute in H. discriminate.
Qed.
Print Assumptions smp_allreduce_refuted.

(** Ranks 1 and 3 of one node in a communicator of their own: the global rank 1 of the
    node's first rank is mistaken for a communicator rank, and communicator rank 1, which
    owns nothing, aborts. *)
Theorem smp_allreduce_abort_refuted : exists nranks node members r,
  smp_comm nranks node members /\ r < length members /\
  allreduce_stages 1 r (seen nranks node members r) = None.
Proof.
  exists 4, (fun _ => 0), [1; 3], 1. split; [|split; [cbn; lia|reflexivity]].
  split; [constructor; [intros [|[]]; discriminate|constructor; [intros []|constructor]]|].
  split; [intros g G; cbn in G; lia|]. split; [discriminate|].
  intros g G. cbn in G. destruct G as [<-|[<-|[]]]; [exists 3|exists 1]; cbn; (split; [lia|]; split; [discriminate|reflexivity]).
Qed.
Print Assumptions smp_allreduce_abort_refuted.

(** Examples: the chains of an owner and of another rank, and a whole allgather of two
    nodes with two ranks each. *)
Example smp_chains :
  map (fun r => allgather_stages 4 3 (seen 4 halves [0; 1; 2; 3] r)) [0; 1; 2] =
    [[KCollectIn; KCollectOut; KBcast 0 12; KNothing]; [KCollectIn; KBcast 0 12; KNothing];
     [KCollectIn; KCollectOut; KBcast 0 12; KNothing]] /\
  map (fun r => allreduce_stages 3 r (seen 4 halves [0; 1; 2; 3] r)) [0; 1; 2] = [Some [KNothing]; Some [KNothing]; Some [KNothing]].
Proof. split; reflexivity. Qed.

Example smp_allgather_2x2 : exists fin : nat -> bufs nat,
  smp_allgather_ended 4 halves [0; 1; 2; 3] 2 Nat.add (fun g e => 10 * g + e) (fun _ _ => 0) (fun _ => 0)
    (fun _ => {| b_dst := fun _ => 7; b_tmp := fun _ => 8 |}) fin /\
  map (b_dst (fin 3)) (seq 0 9) = [0; 1; 10; 11; 20; 21; 30; 31; 7].
Proof.
  destruct halves_comm as (C & E & M & S').
  destruct (smp_allgather_result nat 4 halves [0; 1; 2; 3] 2 Nat.add (fun g e => 10 * g + e) (fun _ _ => 0) (fun _ => 0)
    (fun _ => {| b_dst := fun _ => 7; b_tmp := fun _ => 8 |}) C E M) as ((fin & F) & H).
  exists fin. split; [exact F|]. destruct (H fin F 3 ltac:(cbn; tauto)) as (H1 & H2). cbn [map seq].
  pose proof (H1 0 0 ltac:(cbn; lia) ltac:(lia)). pose proof (H1 0 1 ltac:(cbn; lia) ltac:(lia)).
  pose proof (H1 1 0 ltac:(cbn; lia) ltac:(lia)). pose proof (H1 1 1 ltac:(cbn; lia) ltac:(lia)).
  pose proof (H1 2 0 ltac:(cbn; lia) ltac:(lia)). pose proof (H1 2 1 ltac:(cbn; lia) ltac:(lia)).
  pose proof (H1 3 0 ltac:(cbn; lia) ltac:(lia)). pose proof (H1 3 1 ltac:(cbn; lia) ltac:(lia)).
  pose proof (H2 8 ltac:(cbn; lia)). cbn in *. congruence.
Qed.
