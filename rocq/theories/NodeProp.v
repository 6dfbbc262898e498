(** C63: how nodes hang off switches, for every modelled topology. *)
From Coq Require Import List ZArith Arith Bool Lia.
From Verif Require Import TorusModel NetModel HcModel FtModel DfModel TorusSpec NetSpec TorusProof HcProof HcProp FtProof DfProof DfProp.
Import ListNotations.

(** Nodes 0 .. nodes-1 each hang off exactly one port of exactly one of the n switches; no other
    node is listed, no port carries two nodes, and no network cable leaves by a node's port. *)
Definition nodes_attached (eps : nat -> list (nat * nat)) (conns : nat -> list conn) (n nodes : nat) : Prop :=
  (forall nid, nid < nodes -> exists sw port, sw < n /\ In (nid, port) (eps sw) /\
     forall sw' port', sw' < n -> In (nid, port') (eps sw') -> sw' = sw /\ port' = port) /\
  (forall sw nid port, sw < n -> In (nid, port) (eps sw) ->
     nid < nodes /\ (forall nid', In (nid', port) (eps sw) -> nid' = nid) /\
     (forall c, In c (conns sw) -> c_outport c <> port)).

Lemma block_attached : forall base conns n conc, 0 < conc ->
  (forall s c, s < n -> In c (conns s) -> c_outport c < base) ->
  nodes_attached (fun sw => map (fun i => (sw * conc + i, base + i)) (seq 0 conc)) conns n (n * conc).
Proof.
  intros base conns n conc Hc Hb.
  assert (M : forall sw nid port, In (nid, port) (map (fun i => (sw * conc + i, base + i)) (seq 0 conc)) <->
    exists i, i < conc /\ nid = sw * conc + i /\ port = base + i).
  { intros. rewrite in_map_iff. split.
    - intros (i & E & Hi). apply in_seq in Hi. injection E; intros; subst. exists i. repeat split; auto; lia.
    - intros (i & Hi & -> & ->). exists i. split; auto. apply in_seq; lia. }
  split.
  - intros nid Hn. exists (nid / conc), (nid mod conc + base). split; [apply div_lt'; auto|]. split; [apply divmod_in_map; auto|].
    intros sw' port' Hs' Hin. apply M in Hin. destruct Hin as (i & Hi & E & Ep).
    destruct (dm conc sw' i Hi) as [E1 E2]. rewrite <- E in E1, E2. split; [congruence|]. rewrite E2. lia.
  - intros sw nid port Hs Hin. apply M in Hin. destruct Hin as (i & Hi & -> & ->). split; [nia|]. split.
    + intros nid' Hin. apply M in Hin. destruct Hin as (j & Hj & -> & E). lia.
    + intros c Hin. specialize (Hb sw c Hs Hin). lia.
Qed.

Theorem C63_torus_nodes : forall dims conc, Forall (fun d => 0 < d) dims -> 0 < conc ->
  nodes_attached (endpoints dims conc) (connected_outports dims) (prod dims) (prod dims * conc).
Proof.
  intros dims conc P Hc. apply block_attached; auto. intros s c _ Hin. apply in_outports in Hin; auto.
  destruct Hin as (i & dir & Hi & Hd & ->). unfold cnx. destruct dir as [|[|]]; cbn; unfold to_port; lia.
Qed.
Print Assumptions C63_torus_nodes.
Theorem C63_hypercube_nodes : forall dims conc, Forall (fun d => 0 < d) dims -> 0 < conc ->
  nodes_attached (hc_endpoints dims conc) (hc_outports dims) (prod dims) (prod dims * conc).
Proof. intros dims conc P Hc. apply block_attached; auto. intros. eapply C18_hypercube_wiring; eauto. Qed.
Print Assumptions C63_hypercube_nodes.
Theorem C63_fully_connected_nodes : forall n conc, 0 < conc ->
  nodes_attached (fc_endpoints n conc) (fc_outports n) n (n * conc).
Proof.
  intros n conc Hc. apply block_attached; auto. intros s c _ Hin. apply in_fc in Hin.
  destruct Hin as (i & Hi & _ & ->). auto.
Qed.
Print Assumptions C63_fully_connected_nodes.
Theorem C63_star_nodes : forall conc, 0 < conc -> nodes_attached (star_endpoints conc) (fun _ => []) 1 conc.
Proof.
  intros conc Hc. rewrite <- (Nat.mul_1_l conc) at 2. apply (block_attached 0); auto. intros s c _ [].
Qed.
Print Assumptions C63_star_nodes.
Theorem C63_dragonfly_nodes : forall D conc, usable D -> 0 < conc ->
  nodes_attached (df_endpoints D conc) (df_conns D) (df_switches D) (df_switches D * conc).
Proof.
  intros D conc U Hc. pose proof (usable_sound D U) as So. pose proof (so_a D So) as Ha.
  apply block_attached; auto. intros s c Hs Hin. apply (in_df D Ha) in Hin.
  destruct Hin as [(x & Hx & _ & ->)|(h & d & Hi & _ & ->)]; cbn [c_outport c_local c_global]; [lia|].
  assert (h < length (d_conn D (df_A D s) (df_G D s))) by (apply nth_error_Some; congruence).
  pose proof (so_len D So _ _ (A_lt D Ha s) (G_lt D Ha s Hs)). lia.
Qed.
Print Assumptions C63_dragonfly_nodes.
(** On a fat tree only leaf switches carry nodes, and the node count can be limited (f_max). *)
Theorem C63_fat_tree_nodes : forall p conc, accepted p -> 0 < conc -> f_max p <= num_leaf p * conc ->
  nodes_attached (ft_endpoints p conc) (ft_conns p) (ft_switches p) (f_max p).
Proof.
  intros p conc A Hc Hm. pose proof (acc_facts p A) as F.
  assert (M : forall sw nid port, In (nid, port) (ft_endpoints p conc sw) <->
    sw < num_leaf p /\ exists i, i < conc /\ nid = sw * conc + i /\ port = fU p + i /\ nid < f_max p).
  { intros. unfold ft_endpoints. destruct (Nat.ltb_spec sw (num_leaf p)).
    - rewrite in_flat_map. split.
      + intros (i & Hi & Hin). apply in_seq in Hi. destruct (Nat.ltb_spec (sw * conc + i) (f_max p)); [|contradiction].
        destruct Hin as [E|[]]. injection E; intros; subst. split; auto. exists i. repeat split; auto; lia.
      + intros (_ & i & Hi & -> & -> & Hx). exists i. split; [apply in_seq; lia|].
        destruct (Nat.ltb_spec (sw * conc + i) (f_max p)); [left; auto|lia].
    - split; [contradiction|]. intros (X & _). lia. }
  split.
  - intros nid Hn. assert (Hd : nid / conc < num_leaf p) by (apply Nat.div_lt_upper_bound; lia).
    pose proof (Nat.mod_upper_bound nid conc ltac:(lia)). pose proof (Nat.div_mod nid conc ltac:(lia)).
    exists (nid / conc), (fU p + nid mod conc). split; [apply (leaf_N p); auto|].
    split; [apply M; split; auto; exists (nid mod conc); repeat split; auto; lia|].
    intros sw' port' Hs' Hin. apply M in Hin. destruct Hin as (Hl & i & Hi & E & Ep & _).
    destruct (dm conc sw' i Hi) as [E1 E2]. rewrite <- E in E1, E2. split; [congruence|]. rewrite E2. auto.
  - intros sw nid port Hs Hin. apply M in Hin. destruct Hin as (Hl & i & Hi & -> & -> & Hx). split; auto. split.
    + intros nid' Hin. apply M in Hin. destruct Hin as (_ & j & Hj & -> & E & _). lia.
    + intros c Hin. apply (in_leaf p) in Hin; auto. destruct Hin as (u & Hu & ->). unfold c_la. cbn [c_outport]. lia.
Qed.
Print Assumptions C63_fat_tree_nodes.
Example C63_ex : df_endpoints (circulant 3 7 2) 2 4 = [(8, 5); (9, 6)] /\ ft_endpoints (Ft 4 2 3 2 2 4 3 9 22) 2 11 = [] /\
  ft_endpoints (Ft 4 2 3 2 2 4 3 9 23) 2 11 = [(22, 2)] /\ endpoints [4; 3] 2 5 = [(10, 4); (11, 5)].
Proof. vm_compute. auto. Qed.
