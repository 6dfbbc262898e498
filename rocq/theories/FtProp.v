(** Fat tree: the property theorems. *)
From Coq Require Import List ZArith Arith Bool Lia Relations.
From Verif Require Import TorusModel NetModel FtModel TorusSpec NetSpec TorusProof TorusRoute NetProof FtProof.
Import ListNotations.

Section Pairing.
Variable p : ft.
Hypothesis F : facts p.

Definition partner (conns : nat -> list conn) (n s : nat) (c : conn) : Prop :=
  exists s' c', c_src c = s /\ c_dst c = Z.of_nat s' /\ s' < n /\ In c' (conns s') /\
    c_dst c' = Z.of_nat s /\ c_outport c' = c_inport c /\ c_inport c' = c_outport c.

Lemma up_core_paired : forall t a u, t < fT p -> a < fA p -> u < fUA p ->
  partner (ft_conns p) (ft_switches p) (aggid p t a) (c_ac p t a u).
Proof.
  intros. destruct (ac_back p F t a u H H0 H1) as [Hlt E].
  set (g := u * num_agg p + a * fT p + t) in *.
  exists (coreid p (g / fDC p)), (c_ca p (g / fDC p) (g mod fDC p)).
  assert (g / fDC p < fC p) by (apply ac_spot; auto).
  split; [reflexivity|]. split; [reflexivity|]. split; [apply core_N; auto|].
  split; [apply in_core; eauto|]. rewrite E. auto.
Qed.
Lemma down_core_paired : forall c d, c < fC p -> d < fDC p ->
  partner (ft_conns p) (ft_switches p) (coreid p c) (c_ca p c d).
Proof.
  intros. destruct (ca_back p F c d H H0) as [Hlt E].
  set (g := c * fDC p + d) in *.
  exists (aggid p (g mod fT p) (g mod num_agg p / fT p)),
    (c_ac p (g mod fT p) (g mod num_agg p / fT p) (g / num_agg p)).
  assert (g mod fT p < fT p) by (apply ca_tree; auto).
  assert (g mod num_agg p / fT p < fA p) by (apply ca_spot; auto).
  split; [reflexivity|]. split; [reflexivity|]. split; [apply agg_N; auto|].
  split; [apply in_agg; eauto|]. rewrite E. unfold c_ca. fold g. cbn [c_dst c_outport c_inport].
  repeat split; auto. lia.
Qed.

(** leaf and aggregation switches when the port ratio is one *)
Lemma leaf_paired : fD p = fL p \/ (fA p = 1 /\ fL p = 1) -> cables_paired (ft_conns p) (ft_switches p).
Proof.
  intros C s c Hs Hin. pose proof (a_L p F) as HL. pose proof (a_D p F) as HD. pose proof (a_leaf p F) as HU.
  destruct (sw_cases p F s Hs) as [Hl|[(t & a & Ht & Ha & ->)|(k & Hk & ->)]].
  - apply in_leaf in Hin; auto. destruct Hin as (u & Hu & ->).
    pose proof (leaf_tree p F s Hl) as Ht. pose proof (la_spot p F s u Hu) as Ha.
    pose proof (Nat.mod_upper_bound s (fL p) ltac:(lia)) as Hm.
    pose proof (Nat.div_mod s (fL p) ltac:(lia)) as Hs'.
    set (g := s mod fL p + u * fL p) in *.
    exists (aggid p (s / fL p) (g / fD p)), (c_al p (s / fL p) (g / fD p) (g mod fD p)).
    assert (Hg : g mod fD p < fD p) by (apply Nat.mod_upper_bound; lia).
    split; [reflexivity|]. split; [reflexivity|]. split; [apply agg_N; auto|].
    split; [apply in_agg; eauto|]. unfold c_al, c_la. fold g. cbn [c_dst c_outport c_inport].
    assert (E : (g mod fD p) mod fL p = s mod fL p /\ agg_leaf_port p (g / fD p) (g mod fD p) = u).
    { unfold agg_leaf_port. destruct C as [C|[C1 C2]].
      - rewrite C. assert (E1 : g / fL p = u /\ g mod fL p = s mod fL p).
        { unfold g. rewrite Nat.add_comm. apply dm; auto. }
        destruct E1 as [-> ->]. rewrite Nat.mod_mod by lia. split; auto. rewrite (Nat.div_small _ _ Hm). lia.
      - assert (fU p = fD p) by nia. assert (Eg : g = u) by (unfold g; rewrite C2, Nat.mod_1_r; lia).
        rewrite Eg, C2, !Nat.mod_1_r, (Nat.mod_small u), (Nat.div_small u), Nat.div_1_r by lia. lia. }
    destruct E as [-> ->]. repeat split; auto. lia.
  - apply in_agg in Hin; auto. destruct Hin as [(u & Hu & ->)|(d & Hd & ->)]; [apply up_core_paired; auto|].
    exists (t * fL p + d mod fL p), (c_la p (t * fL p + d mod fL p) (agg_leaf_port p a d)).
    pose proof (al_leaf p F t d Ht) as Hlf. pose proof (Nat.mod_upper_bound d (fL p) ltac:(lia)) as Hm.
    split; [reflexivity|]. split; [reflexivity|]. split; [apply leaf_N; auto|].
    assert (E : agg_leaf_port p a d < fU p /\ (d mod fL p + agg_leaf_port p a d * fL p) / fD p = a /\
                (d mod fL p + agg_leaf_port p a d * fL p) mod fD p = d).
    { unfold agg_leaf_port. destruct C as [C|[C1 C2]].
      - rewrite C in *. rewrite (Nat.div_small d) by lia. rewrite Nat.mod_small by lia.
        rewrite Nat.add_0_r, (Nat.add_comm d). split; [nia|]. apply dm; auto.
      - assert (fU p = fD p) by nia. rewrite C2 in *. assert (a = 0) by lia. subst a.
        rewrite Nat.div_1_r, Nat.mod_1_r, !Nat.mul_1_r. simpl. rewrite Nat.div_small, Nat.mod_small by lia. repeat split; auto; lia. }
    destruct E as (E1 & E2 & E3).
    split; [apply in_leaf; eauto|]. unfold c_la, c_al. cbn [c_dst c_outport c_inport].
    destruct (dm (fL p) t (d mod fL p) Hm) as [-> ->]. rewrite E2, E3. auto.
  - apply in_core in Hin; auto. destruct Hin as (d & Hd & ->). apply down_core_paired; auto.
Qed.

Lemma leaf_unpaired : fD p <> fL p -> ~ (fA p = 1 /\ fL p = 1) -> ~ cables_paired (ft_conns p) (ft_switches p).
Proof.
  intros H1 H2 C. pose proof (a_L p F) as HL. pose proof (a_D p F) as HD. pose proof (a_leaf p F) as HU.
  pose proof (a_T p F) as HT. pose proof (a_A p F) as HA. destruct (a_k p F) as [k Hk].
  assert (2 <= k) by (destruct k as [|[|k]]; lia).
  assert (HN : 0 < num_leaf p) by (unfold num_leaf; nia).
  destruct (Nat.eq_dec (fA p) 1) as [E|E].
  - assert (2 <= fL p) by lia. assert (fL p < fD p) by nia.
    destruct (C (aggid p 0 0) (c_al p 0 0 (fL p))) as (s' & c' & _ & E2 & _ & E4 & E5 & E6 & E7).
    { apply agg_N; auto. } { apply in_agg; eauto 6. }
    unfold c_al in E2, E6, E7. cbn [c_dst c_inport c_outport] in E2, E6, E7.
    rewrite Nat.mod_same in E2 by lia. assert (s' = 0) by lia. subst s'.
    apply in_leaf in E4; auto. destruct E4 as (u & Hu & ->). unfold c_la in E6, E7.
    cbn [c_dst c_inport c_outport] in E6, E7. subst u. unfold agg_leaf_port in *.
    rewrite Nat.div_same in * by lia. rewrite Nat.mod_small in E7.
    + rewrite Nat.mod_0_l in E7 by lia. nia.
    + rewrite Nat.mod_0_l by lia. nia.
  - destruct (C (aggid p 0 1) (c_al p 0 1 0)) as (s' & c' & _ & E2 & _ & E4 & E5 & E6 & E7).
    { apply agg_N; auto; lia. } { apply in_agg; auto; [lia|]. right. exists 0. split; auto; lia. }
    unfold c_al in E2, E6, E7. cbn [c_dst c_inport c_outport] in E2, E6, E7.
    rewrite Nat.mod_0_l in E2 by lia. assert (s' = 0) by lia. subst s'.
    apply in_leaf in E4; auto. destruct E4 as (u & Hu & ->). unfold c_la in E5, E6.
    cbn [c_dst c_inport c_outport] in E5, E6. unfold agg_leaf_port in E6. rewrite Nat.div_0_l in E6 by lia.
    subst u. rewrite Nat.mod_0_l, Nat.div_0_l in E5 by lia. apply Nat2Z.inj in E5.
    replace ((0 + (1 + 0 * fL p) * fL p) / fD p) with 0 in E5 by (rewrite Nat.div_small; nia).
    unfold aggid in E5. lia.
Qed.
End Pairing.

(** ** C19: wiring.  Symmetric exactly when each aggregation switch has one down port per leaf of
    its subtree (or the subtree is a single leaf below a single aggregation switch). *)
Theorem C19_fat_tree_paired_iff : forall p, accepted p ->
  (cables_paired (ft_conns p) (ft_switches p) <-> fD p = fL p \/ (fA p = 1 /\ fL p = 1)).
Proof.
  intros p A. pose proof (acc_facts p A) as F. split; [|apply leaf_paired; auto].
  intros C. destruct (Nat.eq_dec (fD p) (fL p)); auto. right.
  destruct (Nat.eq_dec (fA p) 1), (Nat.eq_dec (fL p) 1); auto;
    exfalso; eapply leaf_unpaired; eauto; lia.
Qed.
Print Assumptions C19_fat_tree_paired_iff.
(** Between aggregation and core the wiring is always symmetric, and no output port is used twice. *)
Theorem C19_agg_core_paired_partial : forall p s c, accepted p -> s < ft_switches p ->
  In c (ft_conns p s) -> (Z.of_nat (num_leaf p) <= c_dst c)%Z -> num_leaf p <= s ->
  partner (ft_conns p) (ft_switches p) s c.
Proof.
  intros p s c A Hs Hin Hd Hl. pose proof (acc_facts p A) as F.
  destruct (sw_cases p F s Hs) as [H|[(t & a & Ht & Ha & ->)|(k & Hk & ->)]]; [lia| |].
  - apply in_agg in Hin; auto. destruct Hin as [(u & Hu & ->)|(d & _ & ->)]; [apply up_core_paired; auto|].
    unfold c_al in Hd. cbn [c_dst] in Hd. pose proof (al_leaf p F t d Ht). lia.
  - apply in_core in Hin; auto. destruct Hin as (d & Hd' & ->). apply down_core_paired; auto.
Qed.
Print Assumptions C19_agg_core_paired_partial.
Theorem C19_ports_unique_partial : forall p, accepted p -> fD p = fL p \/ (fA p = 1 /\ fL p = 1) ->
  ports_unique (ft_conns p) (ft_switches p).
Proof.
  intros p A C. pose proof (acc_facts p A) as F. apply paired_unique.
  - apply leaf_paired; auto.
  - intros. eapply ft_out_unique; eauto.
Qed.
Print Assumptions C19_ports_unique_partial.
(** With two down ports per leaf, accepted and not aborted, two different aggregation switches
    feed the same input port of leaf 0. *)
Theorem C19_input_port_collision_refuted : exists p s1 s2 c1 c2,
  accepted p /\ ft_wiring_aborts p = false /\ s1 < ft_switches p /\ s2 < ft_switches p /\ s1 <> s2 /\
  In c1 (ft_conns p s1) /\ In c2 (ft_conns p s2) /\
  c_dst c1 = c_dst c2 /\ c_inport c1 = c_inport c2.
Proof.
  exists (Ft 3 4 2 2 8 6 1 4 6), 9, 6, (Conn 9 0 0 3), (Conn 6 0 3 3).
  split; [unfold accepted; cbn [fL fA fT fC]; repeat split; try lia; vm_compute; reflexivity|].
  repeat split; try (vm_compute; try reflexivity; lia); vm_compute; tauto.
Qed.
Print Assumptions C19_input_port_collision_refuted.
Example C19_ex : accepted (Ft 4 2 3 2 2 4 3 9 24) /\
  map (fun c => (Z.to_nat (c_dst c), c_outport c, c_inport c)) (ft_conns (Ft 4 2 3 2 2 4 3 9 24) 14)
  = [(18, 4, 1); (18, 5, 7); (19, 6, 4); (4, 0, 0); (5, 1, 0); (6, 2, 0); (7, 3, 0)].
Proof.
  split; [|vm_compute; reflexivity].
  unfold accepted; cbn [fL fA fT fC]; repeat split; try lia; vm_compute; reflexivity.
Qed.

(** ** C20: routing *)

(** Level of a switch, from the numbering: leaves first, then aggregation, then core. *)
Definition ft_level (p : ft) (s : nat) : nat :=
  if s <? fL p * fT p then 0 else if s <? fL p * fT p + fA p * fT p then 1 else 2.

Theorem C20_fat_tree_delivers : forall p conc s nid ku kd, accepted p -> 0 < conc ->
  f_max p <= num_leaf p * conc -> s < num_leaf p -> nid < f_max p ->
  exists tr port,
    gwalk (far_end (ft_conns p) (ft_switches p)) (ft_route p conc ku kd nid) 5 s tt = Some (tr, nid / conc, port) /\
    In (nid, port) (ft_endpoints p conc (nid / conc)) /\
    map (fun c => ft_level p (ch_switch c)) tr =
      (if s =? nid / conc then [] else if s / fL p =? nid / conc / fL p then [0; 1] else [0; 1; 2; 1]).
Proof.
  intros p conc s nid ku kd A Hc Hm Hs Hn. pose proof (acc_facts p A) as F.
  assert (Hd : nid / conc < num_leaf p) by (apply Nat.div_lt_upper_bound; lia).
  assert (Hin : In (nid, nid mod conc + fU p) (ft_endpoints p conc (nid / conc))).
  { unfold ft_endpoints. destruct (Nat.ltb_spec (nid / conc) (num_leaf p)); [|lia].
    apply in_flat_map. exists (nid mod conc). pose proof (Nat.mod_upper_bound nid conc ltac:(lia)).
    split; [apply in_seq; lia|]. pose proof (Nat.div_mod nid conc ltac:(lia)).
    replace (nid / conc * conc + nid mod conc) with nid by lia.
    destruct (Nat.ltb_spec nid (f_max p)); [|lia]. left. f_equal. lia. }
  assert (L0 : forall s, s < num_leaf p -> ft_level p s = 0).
  { intros. unfold ft_level. fold (num_leaf p). destruct (Nat.ltb_spec s0 (num_leaf p)); auto; lia. }
  assert (L1 : forall t a, t < fT p -> a < fA p -> ft_level p (aggid p t a) = 1).
  { intros. pose proof (agg_range p t a H H0). unfold ft_level. fold (num_leaf p) (num_agg p).
    destruct (Nat.ltb_spec (aggid p t a) (num_leaf p)); try lia.
    destruct (Nat.ltb_spec (aggid p t a) (num_leaf p + num_agg p)); auto; lia. }
  assert (L2 : forall c, ft_level p (coreid p c) = 2).
  { intros. unfold ft_level, coreid. fold (num_leaf p) (num_agg p).
    destruct (Nat.ltb_spec (num_leaf p + num_agg p + c) (num_leaf p)); try lia.
    destruct (Nat.ltb_spec (num_leaf p + num_agg p + c) (num_leaf p + num_agg p)); auto; lia. }
  pose proof (leaf_tree p F s Hs) as T1. pose proof (leaf_tree p F _ Hd) as T2.
  destruct (ft_walk p F conc nid ku kd Hd s Hs) as
    [[E W]|[(E & Et & u & a & d & Hu & Ha & Hdd & W)|(Et & u & a & v & c & e & a' & d & Hu & Ha & Hv & Hcc & He & Ha' & Hdd & W)]].
  - exists [], (nid mod conc + fU p). split; auto. split; auto. rewrite E, Nat.eqb_refl. auto.
  - eexists _, _. split; [exact W|]. split; auto. destruct (Nat.eqb_spec s (nid / conc)); [congruence|].
    rewrite Et, Nat.eqb_refl. cbn [map ch_switch]. rewrite L0, L1 by auto. auto.
  - eexists _, _. split; [exact W|]. split; auto.
    destruct (Nat.eqb_spec s (nid / conc)); [congruence|].
    destruct (Nat.eqb_spec (s / fL p) (nid / conc / fL p)); [congruence|].
    cbn [map ch_switch]. rewrite L0, !L1, L2 by auto. auto.
Qed.
Print Assumptions C20_fat_tree_delivers.

Theorem C20_fat_tree_deadlock_free : forall p conc, accepted p -> 0 < conc ->
  deadlock_free (gwaits_for (far_end (ft_conns p) (ft_switches p)) (num_leaf p) (num_leaf p * conc) tt
     (fun _ nid r => exists ku kd, r = ft_route p conc ku kd nid)).
Proof.
  intros p conc A Hc. pose proof (acc_facts p A) as F.
  set (rk := fun c => if ch_switch c <? num_leaf p then 0
     else if ch_switch c <? num_leaf p + num_agg p then if ch_port c <? fD p then 3 else 1 else 2).
  apply ranked_acyclic with (fun c => (rk c, 0)).
  intros a b (s & nid & r & fuel & tr & e & q & Hs & Hn & (ku & kd & ->) & Hw & Hcon).
  assert (Hd : nid / conc < num_leaf p) by (apply Nat.div_lt_upper_bound; lia).
  assert (L0 : forall s u, s < num_leaf p -> rk (Chan s u 0) = 0).
  { intros. unfold rk. cbn [ch_switch]. destruct (Nat.ltb_spec s0 (num_leaf p)); auto; lia. }
  assert (L1 : forall t a u, t < fT p -> a < fA p -> rk (Chan (aggid p t a) u 0) = if u <? fD p then 3 else 1).
  { intros. pose proof (agg_range p t a0 H H0). unfold rk. cbn [ch_switch ch_port].
    destruct (Nat.ltb_spec (aggid p t a0) (num_leaf p)); try lia.
    destruct (Nat.ltb_spec (aggid p t a0) (num_leaf p + num_agg p)); auto; lia. }
  assert (L2 : forall c u, rk (Chan (coreid p c) u 0) = 2).
  { intros. unfold rk, coreid. cbn [ch_switch].
    destruct (Nat.ltb_spec (num_leaf p + num_agg p + c) (num_leaf p)); try lia.
    destruct (Nat.ltb_spec (num_leaf p + num_agg p + c) (num_leaf p + num_agg p)); auto; lia. }
  pose proof (leaf_tree p F s Hs) as T1. pose proof (leaf_tree p F _ Hd) as T2.
  pose proof (gwalk_more _ _ _ _ (fuel + 5) _ _ _ Hw ltac:(lia)) as W1.
  destruct (ft_walk p F conc nid ku kd Hd s Hs) as
    [[E W]|[(E & Et & u & a0 & d & Hu & Ha & Hdd & W)|(Et & u & a0 & v & c & e' & a' & d & Hu & Ha & Hv & Hcc & He & Ha' & Hdd & W)]];
    apply (gwalk_more _ _ _ _ (fuel + 5)) in W; try lia; rewrite W in W1; injection W1; intros; subst tr e q;
    clear W W1 Hw.
  - destruct Hcon as ([|] & post & D); discriminate.
  - apply consecutive_cons in Hcon. destruct Hcon as [(post & D & Ea)|Hcon].
    + injection D; intros; subst a b. left. cbn [fst]. rewrite L0, L1 by auto.
      destruct (Nat.ltb_spec d (fD p)); lia.
    + destruct Hcon as ([|? [|]] & post & D); discriminate.
  - left. cbn [fst].
    apply consecutive_cons in Hcon. destruct Hcon as [(post & D & Ea)|Hcon].
    { injection D; intros; subst a b. rewrite L0, L1 by auto. destruct (_ <? _); lia. }
    apply consecutive_cons in Hcon. destruct Hcon as [(post & D & Ea)|Hcon].
    { injection D; intros; subst a b. rewrite L2, L1 by auto. destruct (Nat.ltb_spec (fD p + v) (fD p)); lia. }
    apply consecutive_cons in Hcon. destruct Hcon as [(post & D & Ea)|Hcon].
    { injection D; intros; subst a b. rewrite L2, L1 by auto. destruct (Nat.ltb_spec d (fD p)); lia. }
    destruct Hcon as ([|? [|]] & post & D); discriminate.
Qed.
Print Assumptions C20_fat_tree_deadlock_free.

Example C20_ex :
  option_map (fun '(tr, e, q) => (map (fun c => (ch_switch c, ch_port c)) tr, e, q))
    (gwalk (far_end (ft_conns (Ft 4 2 3 2 2 4 3 9 24)) 20)
           (ft_route (Ft 4 2 3 2 2 4 3 9 24) 2 (fun s => s) (fun s _ => 2 * s) 23) 5 1 tt)
  = Some ([(1, 0); (12, 4); (18, 2); (16, 3)], 11, 3).
Proof. vm_compute. reflexivity. Qed.

(** ** C62: minimalDistance against the cable graph *)
Lemma leaf_step : forall p (F : facts p) s c, s < num_leaf p -> In c (ft_conns p s) ->
  exists a, a < fA p /\ c_dst c = Z.of_nat (aggid p (s / fL p) a).
Proof.
  intros p F s c Hs Hin. apply in_leaf in Hin; auto. destruct Hin as (u & Hu & ->).
  exists ((s mod fL p + u * fL p) / fD p). split; [apply la_spot; auto|reflexivity].
Qed.
Lemma agg_step : forall p (F : facts p) t a c, t < fT p -> a < fA p -> In c (ft_conns p (aggid p t a)) ->
  (exists k, c_dst c = Z.of_nat (coreid p k)) \/
  (exists l, c_dst c = Z.of_nat l /\ l < num_leaf p /\ l / fL p = t).
Proof.
  intros p F t a c Ht Ha Hin. apply in_agg in Hin; auto. destruct Hin as [(u & Hu & ->)|(d & Hd & ->)].
  - left. eexists. reflexivity.
  - right. eexists. split; [reflexivity|]. split; [apply al_leaf; auto|]. pose proof (a_L p F).
    apply dm. apply Nat.mod_upper_bound; lia.
Qed.
Lemma ghops_inv : forall conns k s t, ghops conns (S k) s t ->
  exists c s', In c (conns s) /\ c_dst c = Z.of_nat s' /\ ghops conns k s' t.
Proof. intros. inversion H; subst. eauto. Qed.
Lemma core_step : forall p (F : facts p) k c, In c (ft_conns p (coreid p k)) ->
  exists t a, t < fT p /\ a < fA p /\ c_dst c = Z.of_nat (aggid p t a).
Proof.
  intros p F k c Hin. apply in_core in Hin. destruct Hin as (d & Hd & ->).
  exists ((k * fDC p + d) mod fT p), ((k * fDC p + d) mod num_agg p / fT p).
  split; [apply ca_tree; auto|]. split; [apply ca_spot; auto|]. reflexivity.
Qed.

(** What the distance between leaves really is. *)
Definition leaf_hops (p : ft) (s t : nat) : nat :=
  if s =? t then 0 else if s / fL p =? t / fL p then 2 else 4.
Theorem C62_leaf_hops_is_graph_distance : forall p s t, accepted p -> s < num_leaf p -> t < num_leaf p ->
  ghops (ft_conns p) (leaf_hops p s t) s t /\
  forall n, ghops (ft_conns p) n s t -> leaf_hops p s t <= n.
Proof.
  intros p s t A Hs Ht. pose proof (acc_facts p A) as F. split.
  - destruct (ft_walk p F 1 t (fun _ => 0) (fun _ _ => 0) ltac:(rewrite Nat.div_1_r; auto) s Hs) as
    [[E W]|[(E & Et & u & a0 & d & Hu & Ha & Hdd & W)|(Et & u & a0 & v & c & e' & a' & d & Hu & Ha & Hv & Hcc & He & Ha' & Hdd & W)]];
    apply gwalk_hops in W; rewrite Nat.div_1_r in *; unfold leaf_hops.
    + rewrite E, Nat.eqb_refl in *. exact W.
    + destruct (Nat.eqb_spec s t); [congruence|]. rewrite Et, Nat.eqb_refl. exact W.
    + destruct (Nat.eqb_spec s t); [congruence|]. destruct (Nat.eqb_spec (s / fL p) (t / fL p)); [congruence|exact W].
  - intros n H. unfold leaf_hops. destruct (Nat.eqb_spec s t); [lia|].
    destruct n; [inversion H; congruence|].
    apply ghops_inv in H. destruct H as (c & s1 & Hin & E1 & H).
    apply (leaf_step p F) in Hin; auto. destruct Hin as (a & Ha & E2). rewrite E1 in E2. apply Nat2Z.inj in E2. subst s1.
    pose proof (leaf_tree p F s Hs) as T1. pose proof (agg_range p _ a T1 Ha) as R1.
    destruct n; [inversion H; lia|].
    destruct (Nat.eqb_spec (s / fL p) (t / fL p)) as [Et|Et]; [lia|].
    apply ghops_inv in H. destruct H as (c2 & s2 & Hin & E3 & H).
    apply (agg_step p F) in Hin; auto. destruct Hin as [(k & E4)|(l & E4 & Hl & Etr)];
      rewrite E3 in E4; apply Nat2Z.inj in E4; subst s2.
    + destruct n; [inversion H; unfold coreid in *; lia|].
      apply ghops_inv in H. destruct H as (c3 & s3 & Hin & E5 & H).
      apply (core_step p F) in Hin; auto. destruct Hin as (t' & a' & Ht' & Ha' & E6).
      rewrite E5 in E6; apply Nat2Z.inj in E6; subst s3. pose proof (agg_range p _ a' Ht' Ha') as R2.
      destruct n; [inversion H; lia|]. lia.
    + destruct n; [inversion H; congruence|].
      apply ghops_inv in H. destruct H as (c3 & s3 & Hin & E5 & H).
      apply (leaf_step p F) in Hin; auto. destruct Hin as (a' & Ha' & E6).
      rewrite E5 in E6; apply Nat2Z.inj in E6; subst s3. pose proof (leaf_tree p F l Hl) as T3.
      pose proof (agg_range p _ a' T3 Ha') as R2.
      destruct n; [inversion H; lia|]. lia.
Qed.
Print Assumptions C62_leaf_hops_is_graph_distance.
(** minimalDistance takes leaf ids for aggregation ids: leaves 0 and 1 share a subtree, two hops
    apart, and it says four; leaves 1 and 2 are in different subtrees, four hops apart, and it says
    two. *)
Theorem C62_minimal_distance_refuted : exists p s t s' t',
  accepted p /\ fD p = fL p /\ s < num_leaf p /\ t < num_leaf p /\ s' < num_leaf p /\ t' < num_leaf p /\
  leaf_hops p s t = 2 /\ ft_distance p s t = 4 /\ leaf_hops p s' t' = 4 /\ ft_distance p s' t' = 2.
Proof.
  exists (Ft 2 3 3 3 3 2 1 3 6), 0, 1, 1, 2.
  split; [unfold accepted; cbn [fL fA fT fC]; repeat split; try lia; vm_compute; reflexivity|].
  repeat split; vm_compute; try reflexivity; lia.
Qed.
Print Assumptions C62_minimal_distance_refuted.
(** What is left of it: zero exactly for equal switches. *)
Theorem C62_distance_zero_partial : forall p s t, ft_distance p s t = 0 <-> s = t.
Proof.
  intros. unfold ft_distance. destruct (Nat.eqb_spec s t); [tauto|].
  destruct (_ =? _)%Z; split; intros; congruence || discriminate.
Qed.
Print Assumptions C62_distance_zero_partial.
Example C62_ex : leaf_hops (Ft 4 2 3 2 2 4 3 9 24) 1 3 = 2 /\ leaf_hops (Ft 4 2 3 2 2 4 3 9 24) 1 11 = 4.
Proof. auto. Qed.
