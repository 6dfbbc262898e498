(** Dragonfly: the property theorems. *)
From Coq Require Import List ZArith Arith Bool Lia Relations.
From Verif Require Import TorusModel NetModel DfModel TorusSpec NetSpec TorusRoute NetProof FtProof DfProof DfWire DfVal HcPar HcProp FtProp.
Import ListNotations.

(** The shapes on which every group has a cable to every other group. *)
Inductive usable : df -> Prop :=
| us_circulant : forall a g h, 0 < a -> h mod 2 = 0 -> g <= a * h + 1 -> usable (circulant a g h)
| us_alltoall : forall a g h, 0 < a -> alltoall_ok a g h = true -> usable (alltoall a g h)
| us_single : forall a g, 0 < a -> g <= a + 1 -> usable (single a g).
Lemma usable_sound : forall D, usable D -> sound D.
Proof. intros D [a g h|a g h|a g]; intros; [apply circ_sound|apply ata_sound|apply single_sound]; auto. Qed.

Lemma parity : forall n, n mod 2 = 0 \/ n mod 2 = 1.
Proof. intros. pose proof (Nat.mod_upper_bound n 2 ltac:(lia)). lia. Qed.

(** ** C21: global cables *)
Theorem C21_circulant_symmetric : forall a g h, 0 < a ->
  cables_paired (df_conns (circulant a g h)) (a * g) /\ ports_unique (df_conns (circulant a g h)) (a * g).
Proof.
  intros a g h Ha. split; [apply (sym_paired (circulant a g h))|apply (sym_unique (circulant a g h))]; auto; apply circ_symmetric; auto.
Qed.
Print Assumptions C21_circulant_symmetric.
Theorem C21_alltoall_symmetric : forall a g h, 0 < a -> alltoall_ok a g h = true ->
  cables_paired (df_conns (alltoall a g h)) (a * g) /\ ports_unique (df_conns (alltoall a g h)) (a * g).
Proof.
  intros a g h Ha OK. split; [apply (sym_paired (alltoall a g h))|apply (sym_unique (alltoall a g h))]; auto; apply ata_symmetric; auto.
Qed.
Print Assumptions C21_alltoall_symmetric.
(** Single links: symmetric exactly when the group size is even or the number of groups divides
    the group size plus one. *)
Theorem C21_single_symmetric_iff : forall a g, 0 < a -> 0 < g ->
  (cables_paired (df_conns (single a g)) (a * g) <-> a mod 2 = 0 \/ (a + 1) mod g = 0).
Proof.
  intros a g Ha Hg. destruct (parity a) as [E|E].
  - split; auto. intros _. apply (sym_paired (single a g)); auto. apply single_symmetric; auto.
  - split.
    + intros C. right. destruct (Nat.eq_dec ((a + 1) mod g) 0); auto. exfalso. exact (single_unpaired a g Ha E Hg n C).
    + intros [C|C]; [congruence|]. apply (sym_paired (single a g)); auto. apply single_symmetric_odd; auto.
Qed.
Print Assumptions C21_single_symmetric_iff.
Theorem C21_single_ports_unique_partial : forall a g, 0 < a -> a mod 2 = 0 \/ (a + 1) mod g = 0 ->
  ports_unique (df_conns (single a g)) (a * g).
Proof.
  intros a g Ha C. apply (sym_unique (single a g)); auto. destruct (parity a) as [E|E]; [apply single_symmetric; auto|].
  destruct C; [congruence|]. apply single_symmetric_odd; auto.
Qed.
Print Assumptions C21_single_ports_unique_partial.
(** Three groups of three routers: the last router of each group has a cable without its opposite. *)
Theorem C21_single_odd_refuted : exists a g, 0 < a /\ g <= a + 1 /\ ~ cables_paired (df_conns (single a g)) (a * g).
Proof. exists 3, 3. split; [lia|]. split; [lia|]. apply single_unpaired; try lia; reflexivity || discriminate. Qed.
Print Assumptions C21_single_odd_refuted.
Example C21_ex :
  map (fun c => (Z.to_nat (c_dst c), c_outport c, c_inport c)) (df_conns (circulant 3 7 2) 4)
  = [(3, 0, 1); (5, 2, 1); (10, 3, 4); (19, 4, 3)] /\
  map (fun c => (Z.to_nat (c_dst c), c_outport c, c_inport c)) (df_conns (alltoall 4 3 4) 5)
  = [(4, 0, 1); (6, 2, 1); (7, 3, 1); (1, 4, 4); (3, 5, 5); (9, 6, 6); (11, 7, 7)] /\
  alltoall_ok 4 3 4 = true.
Proof. vm_compute. auto. Qed.

(** ** C22: minimal routing.  [ks] is any state of the rotating port counters. *)
Theorem C22_minimal_delivers : forall D conc ks s nid, usable D -> 0 < conc -> s < df_switches D ->
  nid < df_switches D * conc ->
  exists tr port, gwalk (far_end (df_conns D) (df_switches D)) (df_route D conc ks nid) 4 s 0 = Some (tr, nid / conc, port) /\
    length tr <= 3 /\ In (nid, port) (df_endpoints D conc (nid / conc)) /\
    Forall (fun c => ch_vc c < 2) tr.
Proof.
  intros D conc ks s nid U Hc Hs Hn. pose proof (usable_sound D U) as So. pose proof (so_a D So) as Ha.
  pose proof (div_lt' _ _ _ Hc Hn) as Ht. pose proof (dfm_le D Ha s (nid / conc)) as L.
  destruct (df_walk D Ha So conc nid ks Ht 4 s 0 Hs ltac:(lia)) as (tr & Hw & Hl).
  eexists _, _. split; [exact Hw|]. split; [lia|]. split.
  - unfold df_endpoints. rewrite Nat.add_comm with (n := d_a D + d_h D). apply divmod_in_map; auto.
  - eapply df_vcs; eauto. repeat split; auto.
Qed.
Print Assumptions C22_minimal_delivers.
(** The virtual channel of each hop is the number of global hops before it, so that the channels
    of one packet climb: local < global within a channel, then the next channel. *)
Theorem C22_minimal_deadlock_free : forall D conc, usable D -> 0 < conc ->
  deadlock_free (gwaits_for (far_end (df_conns D) (df_switches D)) (df_switches D) (df_switches D * conc) 0
     (fun _ nid r => exists ks, r = df_route D conc ks nid)).
Proof.
  intros D conc U Hc. pose proof (usable_sound D U) as So. pose proof (so_a D So) as Ha.
  apply ranked_acyclic with (fun c => (2 * ch_vc c + (if ch_port c <? d_a D then 0 else 1), 0)).
  intros a b (s & nid & r & fuel & tr & e & p & Hs & Hn & (ks & ->) & Hw & Hcon).
  pose proof (div_lt' _ _ _ Hc Hn) as Ht.
  refine (ranked_walk _ _ _ (dinv D conc nid) (fun c => (2 * ch_vc c + (if ch_port c <? d_a D then 0 else 1), 0)) _ _ fuel s 0 tr e p _ Hw a b Hcon).
  - intros s0 h p0 vc h' s' I R Nx.
    destruct (dinv_step D Ha So conc nid ks Ht s0 h p0 vc h' s' I R Nx) as (_ & _ & _ & I' & _). exact I'.
  - intros s0 h p0 vc h' s' p2 vc2 h2 I R Nx R2. left. cbn [fst ch_vc ch_port].
    exact (df_rank D Ha So conc nid ks Ht s0 h p0 vc h' s' p2 vc2 h2 I R Nx R2).
  - repeat split; auto.
Qed.
Print Assumptions C22_minimal_deadlock_free.
(** The channel index is the number of global cables crossed so far. *)
Lemma vc_counts : forall D conc nid ks, sound D -> nid / conc < df_switches D ->
  forall fuel s ng tr e p, dinv D conc nid s ng ->
  gwalk (far_end (df_conns D) (df_switches D)) (df_route D conc ks nid) fuel s ng = Some (tr, e, p) ->
  forall i c, nth_error tr i = Some c ->
    ch_vc c = ng + length (filter (fun c' => d_a D <=? ch_port c') (firstn i tr)).
Proof.
  intros D conc nid ks So Ht. pose proof (so_a D So) as Ha.
  induction fuel; intros s ng tr e p I W i c Hi; [discriminate|]. cbn [gwalk] in W.
  destruct (df_route D conc ks nid s ng) as [q|q vc ng'|] eqn:R; try discriminate.
  - injection W; intros; subst. destruct i; discriminate.
  - destruct (far_end (df_conns D) (df_switches D) s q) as [s'|] eqn:Nx; try discriminate.
    destruct (gwalk (far_end (df_conns D) (df_switches D)) (df_route D conc ks nid) fuel s' ng') as [[[tr' e'] p']|] eqn:W'; try discriminate.
    injection W; intros; subst tr e' p'.
    destruct (dinv_step D Ha So conc nid ks Ht s ng q vc ng' s' I R Nx) as (Ev & _ & _ & I' & L1 & L2).
    destruct i.
    + injection Hi; intros; subst c. cbn [firstn filter length ch_vc]. lia.
    + cbn [nth_error] in Hi. rewrite (IHfuel s' ng' tr' e p I' W' i c Hi). cbn [firstn filter ch_port].
      destruct (Nat.leb_spec (d_a D) q); cbn [length]; [rewrite L2 by auto|rewrite L1 by auto]; lia.
Qed.
Theorem C22_vc_counts_global_hops : forall D conc ks s nid tr e p fuel, usable D -> 0 < conc -> s < df_switches D ->
  nid < df_switches D * conc ->
  gwalk (far_end (df_conns D) (df_switches D)) (df_route D conc ks nid) fuel s 0 = Some (tr, e, p) ->
  forall i c, nth_error tr i = Some c ->
    ch_vc c = length (filter (fun c' => d_a D <=? ch_port c') (firstn i tr)).
Proof.
  intros. pose proof (usable_sound D H) as So. pose proof (div_lt' _ _ _ H0 H2) as Ht.
  rewrite (vc_counts D conc nid ks So Ht fuel s 0 tr e p ltac:(repeat split; auto) H3 i c H4). auto.
Qed.
Print Assumptions C22_vc_counts_global_hops.
Example C22_ex :
  gwalk (far_end (df_conns (circulant 3 7 2)) 21) (df_route (circulant 3 7 2) 2 (fun _ => 5) 9) 4 1 0
  = Some ([Chan 1 0 0; Chan 0 3 0; Chan 3 1 1], 4, 6).
Proof. vm_compute. auto. Qed.
Example C22_ex_usable : usable (circulant 3 7 2) /\ usable (alltoall 4 3 4) /\ usable (single 4 5).
Proof. repeat split; constructor; try lia; reflexivity. Qed.

(** ** C64: minimalDistance *)
(** It is not the length of a shortest cable path: a switch is reported at distance one from itself,
    and two switches joined by a local and a global cable are reported at distance three. *)
Theorem C64_distance_refuted :
  (exists D s, usable D /\ s < df_switches D /\ ghops (df_conns D) 0 s s /\ df_distance D s s = 1) /\
  (exists D s t, usable D /\ s < df_switches D /\ t < df_switches D /\ s <> t /\ ghops (df_conns D) 2 s t /\ df_distance D s t = 3).
Proof.
  split.
  - exists (circulant 3 7 2), 4. split; [constructor; try lia; reflexivity|]. split; [vm_compute; lia|]. split; [constructor|reflexivity].
  - exists (circulant 3 7 2), 1, 11. split; [constructor; try lia; reflexivity|].
    split; [vm_compute; lia|]. split; [vm_compute; lia|]. split; [lia|]. split; [|reflexivity].
    apply ghops_S with (c := Conn 1 2 2 1) (s' := 2); [vm_compute; tauto|reflexivity|].
    apply ghops_S with (c := Conn 2 11 3 4) (s' := 11); [vm_compute; tauto|reflexivity|constructor].
Qed.
Print Assumptions C64_distance_refuted.
Lemma dist_loop_cases : forall D dst l dc,
  (In dst l /\ df_dist_loop D dst dc l = 1) \/
  (~ In dst l /\ ((df_dist_loop D dst dc l = 2 /\ ((exists x, In x l /\ df_G D x = df_G D dst) \/ (0 < dc)%Z)) \/ df_dist_loop D dst dc l = 3)).
Proof.
  induction l as [|x l IH]; intros dc; cbn [df_dist_loop].
  - right. split; [tauto|]. destruct (Z.ltb_spec 0 dc); auto.
  - destruct (Nat.eqb_spec x dst) as [E|E]; [left; split; [left; auto|auto]|].
    destruct (IH (if df_G D x =? df_G D dst then Z.of_nat x else dc)) as [[H1 H2]|[H1 [[H2 H3]|H2]]].
    + left. split; [right; auto|auto].
    + right. split; [intros [?|?]; auto|]. left. split; auto. destruct H3 as [(y & Hy & Hg)|H3]; [left; exists y; split; [right; auto|auto]|].
      destruct (Nat.eqb_spec (df_G D x) (df_G D dst)); [left; exists x; split; [left; auto|auto]|auto].
    + right. split; [intros [?|?]; auto|]. auto.
Qed.
(** For two different switches it is never too small: a path of at most that many cables exists,
    and the minimal router needs at most that many hops when it is 2 or more. *)
Theorem C64_distance_upper_bound_partial : forall D s t, usable D -> s < df_switches D -> t < df_switches D -> s <> t ->
  1 <= df_distance D s t <= 3 /\
  exists k, k <= df_distance D s t /\ ghops (df_conns D) k s t.
Proof.
  intros D s t U Hs Ht Hne. pose proof (usable_sound D U) as So. pose proof (so_a D So) as Ha.
  assert (W : exists tr p, gwalk (far_end (df_conns D) (df_switches D)) (df_route D 1 (fun _ => 0) t) 4 s 0 = Some (tr, t, p) /\ length tr <= dfm D s t).
  { assert (E : t / 1 = t) by apply Nat.div_1_r. pose proof (dfm_le D Ha s t).
    destruct (df_walk D Ha So 1 t (fun _ => 0) ltac:(rewrite E; auto) 4 s 0 Hs ltac:(rewrite E; lia)) as (tr & Hw & Hl).
    rewrite E in Hw at 1. rewrite E in Hl. eauto. }
  destruct W as (tr & p & Hw & Hl). apply gwalk_hops in Hw.
  unfold df_distance. destruct (Nat.eqb_spec (df_G D s) (df_G D t)) as [E|E].
  - split; [lia|]. exists (length tr). split; auto. pose proof (dfm_same D Ha s t E). lia.
  - destruct (dist_loop_cases D t (d_conn D (df_A D s) (df_G D s)) (-1)) as [[H1 ->]|[H1 [[-> H3]| ->]]].
    + split; [lia|]. exists 1. split; auto. apply In_nth_error in H1. destruct H1 as [i Hi].
      econstructor; [apply (in_df D Ha); right; exists i, t; split; [exact Hi|]; split; [congruence|reflexivity]|reflexivity|constructor].
    + split; [lia|]. exists (length tr). split; auto. destruct H3 as [(x & Hx & Hg)|H3]; [|lia].
      pose proof (dfm_direct D So s t (conn_direct D _ _ _ x Hx Hg)). lia.
    + split; [lia|]. exists (length tr). split; auto. pose proof (dfm_le D Ha s t). lia.
Qed.
Print Assumptions C64_distance_upper_bound_partial.
Example C64_ex : df_distance (circulant 3 7 2) 4 10 = 1 /\ df_distance (circulant 3 7 2) 4 11 = 2 /\
  df_distance (circulant 3 7 2) 4 20 = 2 /\ df_distance (circulant 3 7 2) 4 2 = 3.
Proof. vm_compute. auto. Qed.

(** ** C65: Valiant and UGAL.  [dec] is any adaptive behaviour: what each switch measures and draws. *)
Definition nonminimal (D : df) (conc : nat) (dec : nat -> dhdr -> vdec) (nid : nat) (r : nat -> dhdr -> outcome dhdr) : Prop :=
  r = val_route D conc dec nid \/ r = ugal_route D conc dec nid.
Theorem C65_valiant_ugal_deliver : forall D conc dec s nid r, usable D -> 3 <= d_g D -> 0 < conc -> s < df_switches D ->
  nid < df_switches D * conc -> dec_ok D (nid / conc) dec -> nonminimal D conc dec nid r ->
  exists tr port, gwalk (far_end (df_conns D) (df_switches D)) r 7 s h0 = Some (tr, nid / conc, port) /\
    length tr <= 6 /\ map ch_vc tr = seq 0 (length tr) /\ In (nid, port) (df_endpoints D conc (nid / conc)).
Proof.
  intros D conc dec s nid r U G3 Hc Hs Hn Hd R. pose proof (usable_sound D U) as So.
  pose proof (div_lt' _ _ _ Hc Hn) as Ht.
  assert (Hin : In (nid, d_a D + d_h D + nid mod conc) (df_endpoints D conc (nid / conc))).
  { unfold df_endpoints. rewrite Nat.add_comm with (n := d_a D + d_h D). apply divmod_in_map; auto. }
  destruct R as [->| ->].
  - destruct (val_delivers D So conc nid dec Ht Hd G3 s Hs) as (tr & Hw & Hl & Hv). eauto 8.
  - destruct (ugal_delivers D So conc nid dec Ht Hd G3 s Hs) as (tr & Hw & Hl & Hv). eauto 8.
Qed.
Print Assumptions C65_valiant_ugal_deliver.
Theorem C65_valiant_ugal_deadlock_free : forall D conc, usable D -> 3 <= d_g D -> 0 < conc ->
  deadlock_free (gwaits_for (far_end (df_conns D) (df_switches D)) (df_switches D) (df_switches D * conc) h0
     (fun _ nid r => exists dec, dec_ok D (nid / conc) dec /\ nonminimal D conc dec nid r)).
Proof.
  intros D conc U G3 Hc. apply ranked_acyclic with (fun c => (ch_vc c, 0)).
  intros a b (s & nid & r & fuel & tr & e & p & Hs & Hn & (dec & Hd & R) & Hw & Hcon).
  destruct (C65_valiant_ugal_deliver D conc dec s nid r U G3 Hc Hs Hn Hd R) as (tr' & p' & Hw' & _ & Hv & _).
  assert (tr' = tr).
  { pose proof (gwalk_more _ _ _ _ (fuel + 7) _ _ _ Hw ltac:(lia)).
    pose proof (gwalk_more _ _ _ _ (fuel + 7) _ _ _ Hw' ltac:(lia)). congruence. }
  subst tr'. left. cbn [fst]. eapply seq_consecutive; eauto.
Qed.
Print Assumptions C65_valiant_ugal_deadlock_free.
(** Draws of this kind exist for every shape with three routers per group and three groups. *)
Definition other (n x y : nat) : nat :=
  if negb (0 =? x) && negb (0 =? y) then 0 else if negb (1 =? x) && negb (1 =? y) then 1 else 2.
Lemma other_ok : forall n x y, 3 <= n -> other n x y < n /\ other n x y <> x /\ other n x y <> y.
Proof.
  intros. unfold other. destruct (Nat.eqb_spec 0 x), (Nat.eqb_spec 0 y), (Nat.eqb_spec 1 x), (Nat.eqb_spec 1 y); cbn [negb andb]; lia.
Qed.
Example C65_draws_exist : forall D t, 3 <= d_a D -> 3 <= d_g D ->
  dec_ok D t (fun my h => VDec true (other (d_g D) (df_G D my) (df_G D t)) (other (d_a D) (df_A D my) (df_A D t)) 0 0).
Proof. intros D t Ha Hg my h. cbn [v_newa v_newg]. split; apply other_ok; auto. Qed.
Example C65_ex :
  let D := circulant 3 7 2 in
  let dec := fun my (h : dhdr) => VDec true (other 7 (df_G D my) 3) (other 3 (df_A D my) 1) 0 0 in
  option_map (fun '(tr, e, p) => (map (fun c => (ch_switch c, ch_port c, ch_vc c)) tr, e, p))
    (gwalk (far_end (df_conns D) 21) (val_route D 1 dec 10) 7 5 h0)
  = Some ([(5, 0, 0); (3, 4, 1); (0, 2, 2); (2, 3, 3); (11, 1, 4)], 10, 5)
  /\ usable D /\ dec_ok D 10 dec.
Proof.
  cbv zeta. split; [vm_compute; reflexivity|]. split; [constructor; try lia; reflexivity|].
  intros my h. cbn [v_newa v_newg]. split; [exact (other_ok 3 (df_A (circulant 3 7 2) my) 1 ltac:(lia))|exact (other_ok 7 (df_G (circulant 3 7 2) my) 3 ltac:(lia))].
Qed.

(** ** C66: the rotate router *)
Theorem C66_rotate_delivers : forall D conc ks s nid, usable D -> 0 < conc -> s < df_switches D ->
  nid < df_switches D * conc ->
  (forall my, my < df_switches D -> exists c, In c (df_conns D my) /\ d_a D <= c_outport c) ->
  exists tr port, gwalk (far_end (df_conns D) (df_switches D)) (rotate_route D conc ks nid) 5 s (0, 0) = Some (tr, nid / conc, port) /\
    length tr <= 4 /\ map ch_vc tr = seq 0 (length tr) /\ In (nid, port) (df_endpoints D conc (nid / conc)).
Proof.
  intros D conc ks s nid U Hc Hs Hn Hg. pose proof (usable_sound D U) as So. pose proof (so_a D So) as Ha.
  pose proof (div_lt' _ _ _ Hc Hn) as Ht.
  assert (Hr : forall s, s < df_switches D -> rotate_ports D s <> []).
  { intros my Hmy E. destruct (Hg my Hmy) as (c & Hin & Hp). apply (in_df D Ha) in Hin.
    destruct Hin as [(x & Hx & _ & ->)|(h & d & Hi & Hne & ->)]; [cbn [c_outport c_local] in Hp; lia|].
    unfold rotate_ports in E. apply map_eq_nil in E.
    assert (X : In (h, d) (filter (fun '(_, dst) => negb (df_G D dst =? df_G D my)) (indexed (d_conn D (df_A D my) (df_G D my))))).
    { apply filter_In. split; [apply in_indexed; auto|]. apply negb_true_iff, Nat.eqb_neq; auto. }
    rewrite E in X. contradiction. }
  destruct (rotate_delivers D So conc nid ks Ht Hr s Hs) as (tr & Hw & Hl & Hv).
  eexists _, _. split; [exact Hw|]. split; auto. split; auto.
  unfold df_endpoints. rewrite Nat.add_comm with (n := d_a D + d_h D). apply divmod_in_map; auto.
Qed.
Print Assumptions C66_rotate_delivers.
(** Every router of an all-to-all dragonfly has such a cable. *)
Theorem C66_rotate_alltoall : forall a g h my, 0 < a -> alltoall_ok a g h = true -> my < a * g ->
  exists c, In c (df_conns (alltoall a g h) my) /\ a <= c_outport c.
Proof.
  intros a g h my Ha OK Hmy. destruct (ata_facts a g h OK Ha) as (F1 & _). set (D := alltoall a g h).
  assert (HG : df_G D my < g) by (apply (G_lt D Ha my Hmy)).
  set (G' := if df_G D my =? 0 then 1 else 0).
  assert (HG' : G' < g /\ G' <> df_G D my) by (unfold G'; destruct (Nat.eqb_spec (df_G D my) 0); lia).
  destruct (direct_ports D (df_A D my) (df_G D my) G') as [|p l] eqn:E.
  - exfalso. eapply (ata_direct a g h OK Ha (df_A D my) (df_G D my) G'); [| | |exact E]; try tauto. intuition congruence.
  - assert (Hin : In p (direct_ports D (df_A D my) (df_G D my) G')) by (rewrite E; left; auto).
    unfold direct_ports in Hin. apply in_map_iff in Hin. destruct Hin as ([i d] & Ep & Hf). apply filter_In in Hf.
    destruct Hf as [Hi Hg]. apply in_indexed in Hi. apply Nat.eqb_eq in Hg.
    exists (c_global D my i d). split; [apply (in_df D Ha); right; exists i, d; repeat split; auto; intuition congruence|].
    unfold c_global. cbn [c_outport]. change (d_a D) with a. lia.
Qed.
Print Assumptions C66_rotate_alltoall.
Theorem C66_rotate_deadlock_free : forall D conc, usable D -> 0 < conc ->
  (forall my, my < df_switches D -> exists c, In c (df_conns D my) /\ d_a D <= c_outport c) ->
  deadlock_free (gwaits_for (far_end (df_conns D) (df_switches D)) (df_switches D) (df_switches D * conc) (0, 0)
     (fun _ nid r => exists ks, r = rotate_route D conc ks nid)).
Proof.
  intros D conc U Hc Hg. apply ranked_acyclic with (fun c => (ch_vc c, 0)).
  intros a b (s & nid & r & fuel & tr & e & p & Hs & Hn & (ks & ->) & Hw & Hcon).
  destruct (C66_rotate_delivers D conc ks s nid U Hc Hs Hn Hg) as (tr' & p' & Hw' & _ & Hv & _).
  assert (tr' = tr).
  { pose proof (gwalk_more _ _ _ _ (fuel + 5) _ _ _ Hw ltac:(lia)).
    pose proof (gwalk_more _ _ _ _ (fuel + 5) _ _ _ Hw' ltac:(lia)). congruence. }
  subst tr'. left. cbn [fst]. eapply seq_consecutive; eauto.
Qed.
Print Assumptions C66_rotate_deadlock_free.
Example C66_ex :
  option_map (fun '(tr, e, p) => (map (fun c => (ch_switch c, ch_port c, ch_vc c)) tr, e, p))
    (gwalk (far_end (df_conns (alltoall 4 3 4)) 12) (rotate_route (alltoall 4 3 4) 2 (fun _ => 2) 2) 5 6 (0, 0))
  = Some ([(6, 6, 0); (10, 4, 1); (2, 1, 2)], 1, 8).
Proof. vm_compute. reflexivity. Qed.

(** ** C67: progressive adaptive routing.  Six virtual channels are configured (numVC), but a packet
    can take seven hops and ask for channel 6. *)
Theorem C67_par_vc_overflow_refuted : exists D dec s nid tr port,
  usable D /\ 3 <= d_a D /\ 3 <= d_g D /\ s < df_switches D /\ nid < df_switches D /\ dec_ok D nid dec /\
  gwalk (far_end (df_conns D) (df_switches D)) (dpar_route D 1 dec nid) 8 s h0 = Some (tr, nid, port) /\
  exists c, In c tr /\ ~ ch_vc c < 6.
Proof.
  set (D := circulant 3 7 2).
  set (g5 := fun x => if negb (5 =? x) && negb (5 =? 2) then 5 else other 7 x 2).
  exists D, (fun my h => VDec (1 <=? s_hops h) (g5 (df_G D my)) (other 3 (df_A D my) 1) 0 0), 0, 7.
  eexists _, _. split; [constructor; try lia; reflexivity|].
  split; [cbn; lia|]. split; [cbn; lia|]. split; [vm_compute; lia|]. split; [vm_compute; lia|].
  split; [|split; [vm_compute; reflexivity|]].
  - intros my h. cbn [v_newa v_newg]. change (df_A D 7) with 1. change (df_G D 7) with 2. change (d_a D) with 3. change (d_g D) with 7.
    split; [apply other_ok; lia|]. unfold g5. destruct (Nat.eqb_spec 5 (df_G D my)); cbn [negb andb Nat.eqb]; [apply other_ok; lia|].
    repeat split; lia.
  - eexists. split; [do 6 right; left; reflexivity|]. cbn [ch_vc]. lia.
Qed.
Print Assumptions C67_par_vc_overflow_refuted.
(** What holds: every packet arrives within seven hops, on channels 0, 1, 2, ... *)
Theorem C67_par_delivers_partial : forall D conc dec s nid, usable D -> 3 <= d_g D -> 0 < conc -> s < df_switches D ->
  nid < df_switches D * conc -> dec_ok D (nid / conc) dec ->
  exists tr port, gwalk (far_end (df_conns D) (df_switches D)) (dpar_route D conc dec nid) 8 s h0 = Some (tr, nid / conc, port) /\
    length tr <= 7 /\ map ch_vc tr = seq 0 (length tr) /\ In (nid, port) (df_endpoints D conc (nid / conc)).
Proof.
  intros D conc dec s nid U G3 Hc Hs Hn Hd. pose proof (usable_sound D U) as So. pose proof (so_a D So) as Ha.
  pose proof (div_lt' _ _ _ Hc Hn) as Ht.
  destruct (dpar_walk D So conc nid dec Ht Hd G3 3 s h0 Hs eq_refl (dfm_le D Ha _ _) ltac:(lia) ltac:(simpl; lia)) as (tr & Hw & Hl & Hv).
  eexists _, _. split; [exact Hw|]. split; auto. split; auto.
  unfold df_endpoints. rewrite Nat.add_comm with (n := d_a D + d_h D). apply divmod_in_map; auto.
Qed.
Print Assumptions C67_par_delivers_partial.
(** On the all-to-all wiring six channels are enough. *)
Theorem C67_par_alltoall_partial : forall a g h conc dec s nid, 0 < a -> alltoall_ok a g h = true ->
  let D := alltoall a g h in
  3 <= g -> 0 < conc -> s < a * g -> nid < a * g * conc -> dec_ok D (nid / conc) dec ->
  exists tr port, gwalk (far_end (df_conns D) (a * g)) (dpar_route D conc dec nid) 8 s h0 = Some (tr, nid / conc, port) /\
    map ch_vc tr = seq 0 (length tr) /\ forall c, In c tr -> ch_vc c < 6.
Proof.
  intros a g h conc dec s nid Ha OK D G3 Hc Hs Hn Hd. pose proof (ata_sound a g h OK Ha) as So.
  pose proof (div_lt' _ _ _ Hc Hn) as Ht.
  assert (M : dfm D s (nid / conc) <= 2).
  { unfold dfm. destruct (_ =? _); [lia|]. destruct (Nat.eqb_spec (df_G D s) (df_G D (nid / conc))); [lia|].
    destruct (direct_ports D (df_A D s) (df_G D s) (df_G D (nid / conc))) eqn:E; [|lia].
    exfalso. eapply (ata_direct a g h OK Ha (df_A D s) (df_G D s) (df_G D (nid / conc))); [| | |exact E]; auto; apply (G_lt D Ha); auto. }
  destruct (dpar_walk D So conc nid dec Ht Hd G3 2 s h0 Hs eq_refl M ltac:(lia) ltac:(simpl; lia)) as (tr & Hw & Hl & Hv).
  eexists _, _. split; [exact Hw|]. split; auto. intros c Hin. assert (X : In (ch_vc c) (map ch_vc tr)) by (apply in_map; auto).
  rewrite Hv in X. apply in_seq in X. simpl in Hl, X. lia.
Qed.
Print Assumptions C67_par_alltoall_partial.
