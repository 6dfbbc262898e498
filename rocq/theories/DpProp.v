(** Dragonfly+: the property theorems. *)
From Coq Require Import List ZArith Arith Bool Lia Relations Sorted.
From Verif Require Import TorusModel NetModel DfModel DpModel TorusSpec NetSpec TorusRoute NetProof FtProof DfProof DfWire DfProp HcProp FtProp DpProof.
Import ListNotations.

(** ** C113: coordinates, cables and nodes *)
Theorem C113_coordinates : forall D, 0 < d_a D -> 0 < d_g D ->
  (forall sid, sid < dp_switches D -> dp_row D sid < 2 /\ dp_A D sid < d_a D /\ dp_G D sid < d_g D /\
     dp_uid D (dp_row D sid) (dp_A D sid) (dp_G D sid) = sid) /\
  (forall r x G, r < 2 -> x < d_a D -> G < d_g D ->
     dp_uid D r x G < dp_switches D /\ dp_row D (dp_uid D r x G) = r /\ dp_A D (dp_uid D r x G) = x /\ dp_G D (dp_uid D r x G) = G).
Proof.
  intros D Ha Hg. split.
  - intros sid Hs. split; [apply row_lt; auto|]. split; [apply A_lt; auto|]. split; [apply G_lt; auto|]. apply up_self; auto.
  - intros r x G Hr Hx HG. split; [apply up_lt; auto|]. split; [apply up_row; auto|]. split; [apply up_A; auto|]. apply up_G; auto.
Qed.
Print Assumptions C113_coordinates.

Theorem C113_cables : forall a g h, 0 < a -> 0 < g ->
  (alltoall_ok a g h = true -> cables_paired (dp_conns (alltoall a g h)) (2 * (a * g)) /\ ports_unique (dp_conns (alltoall a g h)) (2 * (a * g))) /\
  (cables_paired (dp_conns (circulant a g h)) (2 * (a * g)) /\ ports_unique (dp_conns (circulant a g h)) (2 * (a * g))).
Proof.
  intros a g h Ha Hg. split.
  - intros OK. pose proof (ata_symmetric a g h OK Ha) as S. pose proof (ata_no_self a g h Ha OK) as N.
    split; [apply (dp_paired (alltoall a g h))|apply (dp_unique (alltoall a g h))]; auto.
  - pose proof (circ_symmetric a g h Ha) as S. pose proof (circ_no_self a g h Ha) as N.
    split; [apply (dp_paired (circulant a g h))|apply (dp_unique (circulant a g h))]; auto.
Qed.
Print Assumptions C113_cables.

(** Every node sits on exactly one port of one leaf switch, which no cable uses, and no port number
    reaches maxNumPorts. *)
Theorem C113_nodes : forall D conc, 0 < d_a D -> 0 < d_g D -> 0 < conc ->
  (forall nid, nid < dp_leaves D * conc -> exists p, In (nid, p) (dp_endpoints D conc (nid / conc)) /\ nid / conc < dp_leaves D /\
     forall sw p', sw < dp_switches D -> In (nid, p') (dp_endpoints D conc sw) -> sw = nid / conc /\ p' = p) /\
  (forall sw nid p, sw < dp_switches D -> In (nid, p) (dp_endpoints D conc sw) ->
     nid < dp_leaves D * conc /\ p < dp_max_ports D conc /\ forall c, In c (dp_conns D sw) -> c_outport c <> p) /\
  (forall sw n1 n2 p, In (n1, p) (dp_endpoints D conc sw) -> In (n2, p) (dp_endpoints D conc sw) -> n1 = n2) /\
  ((forall A G, A < d_a D -> G < d_g D -> length (d_conn D A G) <= d_h D) ->
   forall sw c, sw < dp_switches D -> In c (dp_conns D sw) -> c_outport c < dp_max_ports D conc).
Proof.
  intros D conc Ha Hg Hc. pose proof (L_pos D Ha Hg) as HL.
  assert (In_e : forall sw nid p, In (nid, p) (dp_endpoints D conc sw) <->
     sw < dp_leaves D /\ exists i, i < conc /\ nid = sw * conc + i /\ p = i + d_a D).
  { intros sw nid p. unfold dp_endpoints. destruct (Nat.ltb_spec 0 (dp_row D sw)).
    - split; [contradiction|]. intros [Q _]. apply row_leaf in Q; auto. lia.
    - assert (Q : sw < dp_leaves D) by (apply row_leaf; auto; lia). rewrite in_map_iff. split.
      + intros (i & E & Hi). apply in_seq in Hi. injection E as <- <-. split; auto. exists i. repeat split; lia.
      + intros (_ & i & Hi & -> & ->). exists i. split; auto. apply in_seq. lia. }
  split; [|split; [|split]].
  - intros nid Hn. exists (nid mod conc + d_a D).
    pose proof (Nat.div_mod nid conc ltac:(lia)) as E. pose proof (Nat.mod_upper_bound nid conc ltac:(lia)) as B.
    assert (Q : nid / conc < dp_leaves D) by (apply Nat.div_lt_upper_bound; lia).
    split; [apply In_e; split; auto; exists (nid mod conc); repeat split; auto; lia|]. split; auto.
    intros sw p' _ Hin. apply In_e in Hin. destruct Hin as (_ & i & Hi & E' & ->).
    assert (nid / conc = sw) by (symmetry; apply Nat.div_unique with i; lia).
    assert (nid mod conc = i) by (symmetry; apply Nat.mod_unique with sw; lia). lia.
  - intros sw nid p Hs Hin. apply In_e in Hin. destruct Hin as (Q & i & Hi & -> & ->).
    split; [nia|]. split; [unfold dp_max_ports; lia|]. intros c Hin. apply (in_leaf D Ha Hg) in Hin; [|apply (row_leaf D Ha Hg); exact Q].
    destruct Hin as (x & Hx & ->). cbn. lia.
  - intros sw n1 n2 p H1 H2. apply In_e in H1, H2. destruct H1 as (_ & i & _ & -> & E1), H2 as (_ & j & _ & -> & E2). lia.
  - intros Len sw c Hs Hin. unfold dp_max_ports. destruct (Nat.eq_dec (dp_row D sw) 0) as [R|R].
    + apply in_leaf in Hin; auto. destruct Hin as (x & Hx & ->). cbn. lia.
    + apply in_upper in Hin; auto. destruct Hin as [(x & Hx & ->)|(p & rel & Hn & ->)]; cbn; [lia|].
      assert (p < length (d_conn D (dp_A D sw) (dp_G D sw))) by (apply nth_error_Some; congruence).
      pose proof (Len _ _ (A_lt D Ha Hg sw) (G_lt D Ha Hg sw)). lia.
Qed.
Print Assumptions C113_nodes.

Example C113_ex :
  map (fun c => (Z.to_nat (c_dst c), c_outport c, c_inport c)) (dp_conns (alltoall 4 3 4) 5)
  = [(16, 0, 1); (17, 1, 1); (18, 2, 1); (19, 3, 1)] /\
  map (fun c => (Z.to_nat (c_dst c), c_outport c, c_inport c)) (dp_conns (alltoall 4 3 4) 17)
  = [(4, 0, 1); (5, 1, 1); (6, 2, 1); (7, 3, 1); (13, 4, 4); (15, 5, 5); (21, 6, 6); (23, 7, 7)] /\
  dp_endpoints (alltoall 4 3 4) 2 5 = [(10, 4); (11, 5)] /\ dp_endpoints (alltoall 4 3 4) 2 17 = [] /\
  (dp_row (alltoall 4 3 4) 17, dp_A (alltoall 4 3 4) 17, dp_G (alltoall 4 3 4) 17) = (1, 1, 1).
Proof. repeat split. Qed.

(** ** C114: minimal routing *)
(** The constructor of the router accepts every all-to-all dragonfly+. *)
Theorem C114_constructor : forall a g h, 0 < a -> alltoall_ok a g h = true ->
  dp_top_ok (alltoall a g h) = true /\ forall my, my < 2 * (a * g) -> dp_check (alltoall a g h) my = true.
Proof.
  intros a g h Ha OK. pose proof (ata_wired a g h Ha OK) as W. split; [|apply (w_check _ W)].
  unfold dp_top_ok. cbn [d_g d_h alltoall]. pose proof (w_g _ W) as G2. cbn in G2.
  apply andb_true_iff. split; [apply Nat.leb_le; auto|]. unfold alltoall_ok in OK.
  rewrite !andb_true_iff in OK. tauto.
Qed.
Print Assumptions C114_constructor.

(** Any wiring the constructor accepts on every switch, with all [h] links present, delivers every
    packet to its node over as few cables as there can be, on virtual channel 0. *)
Theorem C114_minimal_delivers : forall D conc ks s nid, 0 < d_a D -> wired D -> 0 < conc ->
  s < dp_leaves D -> nid < dp_leaves D * conc ->
  exists tr port, gwalk (far_end (dp_conns D) (dp_switches D)) (dp_route D conc ks nid) 4 s tt = Some (tr, nid / conc, port) /\
    In (nid, port) (dp_endpoints D conc (nid / conc)) /\ Forall (fun c => ch_vc c = 0) tr /\ length tr <= 3 /\
    forall k, ghops (dp_conns D) k s (nid / conc) -> length tr <= k.
Proof.
  intros D conc ks s nid Ha W Hc Hs Hn. pose proof (w_g D W) as G2. pose proof (div_lt' _ _ _ Hc Hn) as Ht.
  destruct (min_walk D Ha ltac:(lia) W conc nid ks Ht s Hs) as (tr & Hw & Hl & Hv & _).
  exists tr, (nid mod conc + d_a D). split; auto. split.
  { unfold dp_endpoints. pose proof (proj2 (row_leaf D Ha ltac:(lia) _) Ht) as R. rewrite R. cbn [Nat.ltb Nat.leb].
    apply in_map_iff. exists (nid mod conc). pose proof (Nat.div_mod nid conc ltac:(lia)).
    pose proof (Nat.mod_upper_bound nid conc ltac:(lia)). split; [f_equal; lia|]. apply in_seq. lia. }
  split; auto. split.
  - rewrite Hl. unfold dp_hops. destruct (s =? _); [lia|]. destruct (_ =? _); lia.
  - intros k Hk. rewrite Hl. apply (no_shorter D Ha ltac:(lia) W); auto.
Qed.
Print Assumptions C114_minimal_delivers.

Lemma sorted_consecutive : forall (f : chan -> nat) tr x y, StronglySorted lt (map f tr) -> consecutive tr x y -> f x < f y.
Proof.
  intros f tr x y S (pre & post & ->). rewrite map_app in S. induction pre; cbn in S.
  - inversion S as [|? ? _ F]; subst. inversion F; auto.
  - inversion S; auto.
Qed.
Ltac ssort := repeat (apply SSorted_cons || apply SSorted_nil || apply Forall_cons || apply Forall_nil || lia).

Theorem C114_minimal_deadlock_free : forall D conc, 0 < d_a D -> wired D -> 0 < conc ->
  deadlock_free (gwaits_for (far_end (dp_conns D) (dp_switches D)) (dp_leaves D) (dp_leaves D * conc) tt
     (fun _ nid r => exists ks, r = dp_route D conc ks nid)).
Proof.
  intros D conc Ha W Hc. pose proof (w_g D W) as G2. apply ranked_acyclic with (fun c => (dp_rank D c, 0)).
  intros x y (s & nid & r & fuel & tr & e & p & Hs & Hn & (ks & ->) & Hw & Hcon). left. cbn [fst].
  pose proof (div_lt' _ _ _ Hc Hn) as Ht.
  destruct (min_walk D Ha ltac:(lia) W conc nid ks Ht s Hs) as (tr' & Hw' & _ & _ & Hr).
  assert (tr' = tr).
  { pose proof (gwalk_more _ _ _ _ (fuel + 4) _ _ _ Hw ltac:(lia)).
    pose proof (gwalk_more _ _ _ _ (fuel + 4) _ _ _ Hw' ltac:(lia)). congruence. }
  subst tr'. eapply sorted_consecutive; eauto. rewrite Hr.
  destruct (s =? _); [ssort|]. destruct (_ =? _); ssort.
Qed.
Print Assumptions C114_minimal_deadlock_free.

Theorem C114_alltoall_wired : forall a g h, 0 < a -> alltoall_ok a g h = true -> wired (alltoall a g h).
Proof. exact ata_wired. Qed.
Print Assumptions C114_alltoall_wired.

(** The constructors only look at the links there are: a circulant wiring of two groups of two passes
    every check, and then packets are sent to a port without a cable. *)
Theorem C114_missing_links_refuted : exists a g h conc ks s nid, 0 < a /\ 0 < conc /\ h mod 2 = 0 /\
  let D := circulant a g h in
  dp_top_ok D = true /\ (forall my, my < dp_switches D -> dp_check D my = true) /\
  s < dp_leaves D /\ nid < dp_leaves D * conc /\
  forall fuel, gwalk (far_end (dp_conns D) (dp_switches D)) (dp_route D conc ks nid) fuel s tt = None.
Proof.
  exists 2, 2, 2, 1, (fun _ => 1), 0, 3. split; [lia|]. split; [lia|]. split; [reflexivity|]. cbv zeta.
  split; [reflexivity|]. split.
  { intros my Hmy. change (dp_switches (circulant 2 2 2)) with 8 in Hmy.
    do 8 (destruct my as [|my]; [reflexivity|]). lia. }
  split; [vm_compute; lia|]. split; [vm_compute; lia|].
  intros fuel. destruct fuel as [|[|fuel]]; [reflexivity|reflexivity|].
  cbn [gwalk]. change (dp_route (circulant 2 2 2) 1 (fun _ => 1) 3 0 tt) with (@Forward unit 1 0 tt). cbn iota beta.
  change (far_end (dp_conns (circulant 2 2 2)) (dp_switches (circulant 2 2 2)) 0 1) with (Some 5). cbn iota beta.
  change (dp_route (circulant 2 2 2) 1 (fun _ => 1) 3 5 tt) with (@Forward unit 3 0 tt). cbn iota beta.
  change (far_end (dp_conns (circulant 2 2 2)) (dp_switches (circulant 2 2 2)) 5 3) with (@None nat). reflexivity.
Qed.
Print Assumptions C114_missing_links_refuted.

Example C114_ex :
  gwalk (far_end (dp_conns (alltoall 4 3 4)) 24) (dp_route (alltoall 4 3 4) 2 (fun x => 2 * x + 1) 23) 4 0 tt
  = Some ([Chan 0 1 0; Chan 13 7 0; Chan 23 3 0], 11, 5) /\
  gwalk (far_end (dp_conns (alltoall 4 3 4)) 24) (dp_route (alltoall 4 3 4) 2 (fun x => 2 * x + 1) 4) 4 0 tt
  = Some ([Chan 0 1 0; Chan 13 2 0], 2, 4) /\
  gwalk (far_end (dp_conns (alltoall 4 3 4)) 24) (dp_route (alltoall 4 3 4) 2 (fun x => 2 * x + 1) 1) 4 0 tt = Some ([], 0, 5).
Proof. repeat split. Qed.

(** ** C115: progressive adaptive routing *)
(** Whatever the queue lengths and random numbers, the packet reaches its node over at most four
    cables, two of them global, on two virtual channels; a detour visits exactly one group, which is
    neither the source's nor the destination's. *)
Theorem C115_par_delivers : forall D conc ks dec s nid, 0 < d_a D -> wired D -> 0 < conc ->
  s < dp_leaves D -> nid < dp_leaves D * conc -> dp_dec_ok D (nid / conc) dec ->
  exists tr port, gwalk (far_end (dp_conns D) (dp_switches D)) (dp_par D conc ks dec nid) 5 s (DpInitial, 0) = Some (tr, nid / conc, port) /\
    In (nid, port) (dp_endpoints D conc (nid / conc)) /\ Forall (fun c => ch_vc c < 2) tr /\ length tr <= 4 /\
    ((forall k, ghops (dp_conns D) k s (nid / conc) -> length tr <= k) \/
     exists i, i <> dp_G D s /\ i <> dp_G D (nid / conc) /\
       map (fun c => dp_G D (ch_switch c)) tr = [dp_G D s; dp_G D s; i; dp_G D (nid / conc)]).
Proof.
  intros D conc ks dec s nid Ha W Hc Hs Hn Hd. pose proof (w_g D W) as G2. pose proof (div_lt' _ _ _ Hc Hn) as Ht.
  destruct (par_walk D Ha ltac:(lia) W conc nid ks Ht dec Hd s Hs) as (tr & Hw & Hv & Hr).
  exists tr, (nid mod conc + d_a D). split; auto. split.
  { unfold dp_endpoints. pose proof (proj2 (row_leaf D Ha ltac:(lia) _) Ht) as R. rewrite R. cbn [Nat.ltb Nat.leb].
    apply in_map_iff. exists (nid mod conc). pose proof (Nat.div_mod nid conc ltac:(lia)).
    pose proof (Nat.mod_upper_bound nid conc ltac:(lia)). split; [f_equal; lia|]. apply in_seq. lia. }
  split; auto.
  destruct Hr as [[Hr _]|[Hr (_ & _ & u & i & d & M & -> & N1 & N2 & ->)]]; pose proof (f_equal (@length nat) Hr) as Hl;
    rewrite map_length in Hl.
  - split; [rewrite Hl; destruct (s =? _); [|destruct (_ =? _)]; cbn; lia|]. left. intros k Hk.
    pose proof (no_shorter D Ha ltac:(lia) W k s _ Hs Ht Hk) as Q. rewrite Hl. unfold dp_hops in Q.
    destruct (s =? _); [|destruct (_ =? _)]; cbn; lia.
  - split; [rewrite Hl; cbn; lia|]. right. exists i. auto.
Qed.
Print Assumptions C115_par_delivers.

Theorem C115_par_deadlock_free : forall D conc, 0 < d_a D -> wired D -> 0 < conc ->
  deadlock_free (gwaits_for (far_end (dp_conns D) (dp_switches D)) (dp_leaves D) (dp_leaves D * conc) (DpInitial, 0)
     (fun _ nid r => exists ks dec, dp_dec_ok D (nid / conc) dec /\ r = dp_par D conc ks dec nid)).
Proof.
  intros D conc Ha W Hc. pose proof (w_g D W) as G2. apply ranked_acyclic with (fun c => (dp_rank D c, 0)).
  intros x y (s & nid & r & fuel & tr & e & p & Hs & Hn & (ks & dec & Hd & ->) & Hw & Hcon). left. cbn [fst].
  pose proof (div_lt' _ _ _ Hc Hn) as Ht.
  destruct (par_walk D Ha ltac:(lia) W conc nid ks Ht dec Hd s Hs) as (tr' & Hw' & _ & Hr).
  assert (tr' = tr).
  { pose proof (gwalk_more _ _ _ _ (fuel + 5) _ _ _ Hw ltac:(lia)).
    pose proof (gwalk_more _ _ _ _ (fuel + 5) _ _ _ Hw' ltac:(lia)). congruence. }
  subst tr'. eapply sorted_consecutive; eauto.
  destruct Hr as [[Hr _]|[Hr _]]; rewrite Hr; [|ssort]. destruct (s =? _); [ssort|]. destruct (_ =? _); ssort.
Qed.
Print Assumptions C115_par_deadlock_free.

(** Every group other than the two is a possible detour: each of its links is a number the loop can
    stop at. *)
Theorem C115_detours_exist : forall D ej s i r, 0 < d_a D -> wired D -> s < dp_switches D -> i < d_g D ->
  i <> dp_G D s -> i <> dp_G D ej -> dp_G D s <> dp_G D ej -> r < dp_cov D ->
  exists dec, dp_dec_ok D ej dec /\ dec s = (true, i * dp_cov D + r).
Proof.
  intros D ej s i r Ha W Hs Hi N1 N2 N3 Hr. pose proof (w_g D W) as G2. destruct (cov_pos D Ha ltac:(lia) W) as [C1 C2].
  pose proof (G_lt D Ha ltac:(lia) ej) as Gj.
  exists (fun my => if my =? s then (true, i * dp_cov D + r) else (false, other (d_g D) (dp_G D my) (dp_G D ej) * dp_cov D)).
  split; [|rewrite Nat.eqb_refl; auto].
  intros my v G3 NE Hmy. subst v. destruct (Nat.eqb_spec my s) as [->|_]; cbn [snd].
  - rewrite (div_block D Ha ltac:(lia)) by auto. split; [nia|auto].
  - replace (other (d_g D) (dp_G D my) (dp_G D ej) * dp_cov D) with (other (d_g D) (dp_G D my) (dp_G D ej) * dp_cov D + 0) by lia.
    rewrite (div_block D Ha ltac:(lia)) by auto. unfold other.
    destruct (Nat.eqb_spec 0 (dp_G D my)), (Nat.eqb_spec 0 (dp_G D ej)), (Nat.eqb_spec 1 (dp_G D my)), (Nat.eqb_spec 1 (dp_G D ej));
      cbn [negb andb]; (split; [nia|]); lia.
Qed.
Print Assumptions C115_detours_exist.

Example C115_ex :
  gwalk (far_end (dp_conns (alltoall 4 3 4)) 24) (dp_par (alltoall 4 3 4) 2 (fun x => x) (fun _ => (true, 3)) 23) 5 0 (DpInitial, 0)
  = Some ([Chan 0 0 0; Chan 12 5 0; Chan 18 6 1; Chan 22 3 1], 11, 5) /\
  gwalk (far_end (dp_conns (alltoall 4 3 4)) 24) (dp_par (alltoall 4 3 4) 2 (fun x => x) (fun _ => (false, 3)) 23) 5 0 (DpInitial, 0)
  = Some ([Chan 0 0 0; Chan 12 6 0; Chan 20 3 0], 11, 5).
Proof. repeat split. Qed.

(** ** C116: the reported distance *)
(** Exact whenever one of two different switches is a leaf. *)
Theorem C116_distance_partial : forall a g h s t, 0 < a -> alltoall_ok a g h = true -> let D := alltoall a g h in
  s < dp_leaves D -> t < dp_switches D -> s <> t ->
  ghops (dp_conns D) (dp_distance D s t) s t /\ forall k, ghops (dp_conns D) k s t -> dp_distance D s t <= k.
Proof.
  intros a g h s t Ha OK D Hs Ht NE. pose proof (ata_wired a g h Ha OK) as W. fold D in W. pose proof (w_g D W) as G2.
  assert (HaD : 0 < d_a D) by exact Ha. assert (HgD : 0 < d_g D) by lia.
  pose proof (proj2 (row_leaf D HaD HgD s) Hs) as Rs. pose proof (row_lt D HaD HgD t Ht) as Rt.
  unfold dp_distance. rewrite Rs. destruct (Nat.eq_dec (dp_row D t) 0) as [R|R].
  - assert (Lt : t < dp_leaves D) by (apply row_leaf; auto). rewrite R. cbn [Nat.eqb].
    assert (E : dp_hops D s t = if dp_G D s =? dp_G D t then 2 else 1 + (1 - 0) + (1 - 0)).
    { unfold dp_hops. destruct (Nat.eqb_spec s t); [contradiction|auto]. }
    rewrite <- E. split.
    + assert (Q : t / 1 < dp_leaves D) by (rewrite Nat.div_1_r; auto).
      destruct (min_walk D HaD HgD W 1 t (fun _ => 0) Q s Hs) as (tr & Hw & Hl & _). rewrite Nat.div_1_r in Hl, Hw at 1.
      rewrite <- Hl. eapply gwalk_hops; eauto.
    + intros k Hk. apply no_shorter; auto.
  - assert (R1 : dp_row D t = 1) by lia. rewrite R1. cbn [Nat.eqb Nat.sub Nat.add].
    destruct (Nat.eqb_spec (dp_G D s) (dp_G D t)) as [E|E].
    + split.
      * apply ghops_S with (c := c_up D s (dp_A D t)) (s' := t); [| |constructor].
        -- apply in_leaf; auto. exists (dp_A D t). split; auto. apply A_lt; auto.
        -- cbn [c_dst c_up]. rewrite E, <- R1. rewrite up_self; auto.
      * intros k Hk. destruct k; [apply ghops_0 in Hk; contradiction|lia].
    + split.
      * destruct (to_group D HaD HgD W t (dp_G D s) 0 Ht ltac:(lia) (G_lt D HaD HgD s) ltac:(auto) ltac:(destruct (cov_pos D HaD HgD W); lia)) as (v & N & V1 & V2 & V3).
        apply far_end_cable in N. destruct N as (_ & c & Hc & Hd & _).
        destruct (dp_paired D HaD HgD (ata_symmetric a g h OK Ha) (ata_no_self a g h Ha OK) t c Ht Hc) as (v' & c' & _ & B2 & _ & B4 & B5 & _).
        assert (v' = v) by (apply Nat2Z.inj; congruence). subst v'.
        apply ghops_S with (c := c_up D s (dp_A D v)) (s' := v).
        -- apply in_leaf; auto. exists (dp_A D v). split; auto. apply A_lt; auto.
        -- cbn [c_dst c_up]. rewrite <- V3, <- V2. rewrite up_self; auto.
        -- apply ghops_S with (c := c') (s' := t); auto. constructor.
      * intros k Hk. destruct k; [apply ghops_0 in Hk; contradiction|].
        destruct k; [|lia]. exfalso. destruct (ghops_leaf D HaD HgD _ _ _ Hs Hk) as (u & _ & _ & U3 & U4).
        apply ghops_0 in U4. congruence.
Qed.
Print Assumptions C116_distance_partial.

(** Two nodes of one leaf switch are reported two hops apart although the packet crosses no cable, and
    two upper switches of different groups one hop apart although no cable joins them. *)
Theorem C116_distance_refuted :
  (exists a g h conc n1 n2 port, 0 < a /\ alltoall_ok a g h = true /\ n1 <> n2 /\
     gwalk (far_end (dp_conns (alltoall a g h)) (dp_switches (alltoall a g h))) (dp_route (alltoall a g h) conc (fun _ => 0) n2) 4 (n1 / conc) tt
       = Some ([], n2 / conc, port) /\ dp_node_hops (alltoall a g h) conc n1 n2 = 2) /\
  (exists a g h s t, 0 < a /\ alltoall_ok a g h = true /\ s < dp_switches (alltoall a g h) /\ t < dp_switches (alltoall a g h) /\ s <> t /\
     dp_distance (alltoall a g h) s t = 1 /\ ~ ghops (dp_conns (alltoall a g h)) 1 s t).
Proof.
  split.
  - exists 4, 3, 4, 2, 0, 1, 5. repeat split; auto; lia.
  - exists 4, 3, 4, 12, 17. split; [lia|]. split; [reflexivity|]. split; [vm_compute; lia|]. split; [vm_compute; lia|].
    split; [lia|]. split; [reflexivity|]. intros H. inversion H as [|k s c s' t Hc Hd Hh]; subst. apply ghops_0 in Hh. subst s'.
    assert (X : forallb (fun c => negb (Z.eqb (c_dst c) 17)) (dp_conns (alltoall 4 3 4) 12) = true) by (vm_compute; reflexivity).
    rewrite forallb_forall in X. specialize (X c Hc). rewrite Hd in X. discriminate X.
Qed.
Print Assumptions C116_distance_refuted.
Example C116_ex : dp_distance (alltoall 4 3 4) 0 11 = 3 /\ dp_distance (alltoall 4 3 4) 0 17 = 2 /\ dp_distance (alltoall 4 3 4) 0 2 = 2.
Proof. repeat split. Qed.
