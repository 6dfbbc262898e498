(** Torus: the property theorems. *)
From Coq Require Import List ZArith Arith Bool Lia Relations.
From Verif Require Import TorusModel TorusSpec TorusProof TorusRoute TorusValiant.
Import ListNotations.

(** ** C13: coordinates and switch ids are inverse *)
Theorem C13_torus_coords_bijection : forall dims, Forall (fun d => 0 < d) dims ->
  (forall s, s < prod dims ->
     legal_coords dims (switch_coords dims s) /\ switch_addr dims (switch_coords dims s) = s) /\
  (forall cs, legal_coords dims cs ->
     switch_addr dims cs < prod dims /\ switch_coords dims (switch_addr dims cs) = cs).
Proof.
  intros dims P. split; intros.
  - rewrite switch_coords_eq, switch_addr_eq by auto. split; auto using coords_legal, addr_coords.
  - rewrite switch_coords_eq, switch_addr_eq by auto. split; auto using addr_lt, coords_addr.
Qed.
Print Assumptions C13_torus_coords_bijection.
Example C13_ex : switch_coords [4; 3; 5] 47 = [3; 2; 3] /\ switch_addr [4; 3; 5] [3; 2; 3] = 47
  /\ 47 < prod [4; 3; 5] /\ Forall (fun d => 0 < d) [4; 3; 5].
Proof. repeat split; auto; repeat constructor. Qed.

(** ** C14: wiring *)
Theorem C14_torus_cables_paired : forall dims s c, Forall (fun d => 2 <= d) dims -> s < prod dims ->
  In c (connected_outports dims s) ->
  exists s' c', c_src c = s /\ c_dst c = Z.of_nat s' /\ s' < prod dims /\
    In c' (connected_outports dims s') /\ c_dst c' = Z.of_nat s /\
    c_outport c' = c_inport c /\ c_inport c' = c_outport c.
Proof.
  intros dims s c B Hs Hin. pose proof (big_pos _ B) as P.
  apply in_outports in Hin; auto. destruct Hin as (i & dir & Hi & Hd & ->).
  exists (nbr dims s i dir), (cnx dims (nbr dims s i dir) i (1 - dir)).
  rewrite !cnx_dst by (apply big_nth; auto). repeat split.
  - apply nbr_lt; auto.
  - apply in_outports; auto. exists i, (1 - dir). repeat split; auto; lia.
  - rewrite nbr_back; auto.
  - unfold cnx, to_port. cbn [c_inport c_outport]. lia.
Qed.
Print Assumptions C14_torus_cables_paired.

(** Every input port of every switch receives exactly one cable, and every output port of every
    switch carries exactly one. *)
Theorem C14_torus_ports_used_once : forall dims s port, Forall (fun d => 2 <= d) dims ->
  s < prod dims -> port < 2 * length dims ->
  (exists c, In c (connected_outports dims s) /\ c_outport c = port /\
     forall c2, In c2 (connected_outports dims s) -> c_outport c2 = port -> c2 = c) /\
  (exists s0 c, s0 < prod dims /\ In c (connected_outports dims s0) /\
     c_dst c = Z.of_nat s /\ c_inport c = port /\
     forall s2 c2, s2 < prod dims -> In c2 (connected_outports dims s2) ->
       c_dst c2 = Z.of_nat s -> c_inport c2 = port -> s2 = s0 /\ c2 = c).
Proof.
  intros dims s port B Hs Hp. pose proof (big_pos _ B) as P.
  assert (Hpd : exists i dir, i < length dims /\ dir < 2 /\ port = 2 * i + dir).
  { exists (port / 2), (port mod 2). pose proof (Nat.div_mod port 2 ltac:(lia)).
    pose proof (Nat.mod_upper_bound port 2 ltac:(lia)). lia. }
  destruct Hpd as (i & dir & Hi & Hdir & ->). split.
  - exists (cnx dims s i dir). split; [apply in_outports; eauto|]. split; auto.
    intros c2 Hin E. apply in_outports in Hin; auto. destruct Hin as (i2 & d2 & Hi2 & Hd2 & ->).
    simpl in E. unfold to_port in E. assert (i2 = i) by lia. assert (d2 = dir) by lia. subst; auto.
  - exists (nbr dims s i dir), (cnx dims (nbr dims s i dir) i (1 - dir)).
    rewrite cnx_dst by (apply big_nth; auto). repeat split.
    + apply nbr_lt; auto.
    + apply in_outports; auto. exists i, (1 - dir). repeat split; auto; lia.
    + rewrite nbr_back; auto.
    + unfold cnx, to_port. cbn [c_inport c_outport]. lia.
    + apply in_outports in H0; auto. destruct H0 as (i2 & d2 & Hi2 & Hd2 & ->).
      rewrite cnx_dst in H1 by (apply big_nth; auto). apply Nat2Z.inj in H1.
      unfold cnx, to_port in H2. cbn [c_inport] in H2. assert (i2 = i) by lia. assert (1 - d2 = dir) by lia.
      subst i2. rewrite <- H1, <- H3. symmetry. apply nbr_back; auto.
    + apply in_outports in H0; auto. destruct H0 as (i2 & d2 & Hi2 & Hd2 & ->).
      rewrite cnx_dst in H1 by (apply big_nth; auto). apply Nat2Z.inj in H1.
      unfold cnx, to_port in H2. cbn [c_inport] in H2. assert (i2 = i) by lia. assert (Hd : d2 = 1 - dir) by lia.
      subst i2. f_equal; auto. rewrite <- H1. replace dir with (1 - d2) by lia. symmetry. apply nbr_back; auto.
Qed.
Print Assumptions C14_torus_ports_used_once.
Example C14_ex :
  map (fun c => (Z.to_nat (c_dst c), c_outport c, c_inport c)) (connected_outports [4; 3; 2] 11)
  = [(8, 0, 1); (10, 1, 0); (3, 2, 3); (7, 3, 2); (23, 4, 5); (23, 5, 4)]
  /\ Forall (fun d => 2 <= d) [4; 3; 2] /\ 11 < prod [4; 3; 2].
Proof. split; [vm_compute; reflexivity|]. split; [repeat constructor|vm_compute; lia]. Qed.

(** With a dimension of size one the pairing fails: the minus port of switch 5 of a 4x1x3 torus
    leads to switch 1, whose own cable on the stated port leads elsewhere; and for switch 0 the
    far end is a negative id. *)
Theorem C14_size_one_dimension_refuted :
  exists dims s c, Forall (fun d => 1 <= d) dims /\ s < prod dims /\
    In c (connected_outports dims s) /\
    (forall s', c_dst c = Z.of_nat s' ->
       forall c', In c' (connected_outports dims s') -> c_outport c' = c_inport c -> c_dst c' <> Z.of_nat s) /\
    exists s2 c2, s2 < prod dims /\ In c2 (connected_outports dims s2) /\ (c_dst c2 < 0)%Z.
Proof.
  exists [4; 1; 3], 5, (Conn 5 1 3 2). split; [repeat constructor|]. split; [vm_compute; lia|].
  split; [vm_compute; auto|]. split.
  - intros s' E. simpl in E. assert (s' = 1) by lia. subst s'.
    intros c' Hin Ho. vm_compute in Hin. simpl in Ho.
    repeat (destruct Hin as [<-|Hin]; [simpl in *; lia|]). contradiction.
  - exists 0, (Conn 0 (-4) 3 2). split; [vm_compute; lia|]. split; [vm_compute; auto|simpl; lia].
Qed.
Print Assumptions C14_size_one_dimension_refuted.

(** ** C15: minimal routing *)

(** The packet is ejected at the right switch on the port its node hangs off, after exactly
    minimal_distance hops (any header the packet arrives with). *)
Theorem C15_torus_minimal_delivers : forall dims conc s nid h, Forall (fun d => 0 < d) dims ->
  0 < conc -> s < prod dims -> nid < prod dims * conc ->
  exists tr port,
    walk dims (fun my h => torus_route dims conc my nid h)
         (S (minimal_distance dims s (nid / conc))) s h = Some (tr, nid / conc, port) /\
    length tr = minimal_distance dims s (nid / conc) /\
    In (nid, port) (endpoints dims conc (nid / conc)).
Proof.
  intros. assert (T : nid / conc < prod dims) by (apply Nat.div_lt_upper_bound; lia).
  destruct (walk_minimal dims conc nid H T _ s h H1 eq_refl) as (tr & Hw & Hl).
  exists tr, (nid mod conc + 2 * length dims). repeat split; auto.
  unfold endpoints. apply in_map_iff. exists (nid mod conc). split.
  - f_equal; [|lia]. rewrite Nat.mul_comm. symmetry. apply Nat.div_mod; lia.
  - apply in_seq. pose proof (Nat.mod_upper_bound nid conc ltac:(lia)). lia.
Qed.
Print Assumptions C15_torus_minimal_delivers.

(** minimal_distance really is the distance in the cable graph: the walk realises it and no
    path of cables is shorter. *)
Theorem C15_torus_distance_is_graph_distance : forall dims s t, Forall (fun d => 2 <= d) dims ->
  s < prod dims -> t < prod dims ->
  hops dims (minimal_distance dims s t) s t /\
  forall n, hops dims n s t -> minimal_distance dims s t <= n.
Proof. intros. split; [apply hops_exist; auto | intros; apply hops_lower; auto]. Qed.
Print Assumptions C15_torus_distance_is_graph_distance.

(** The channels a walk reports are cables it followed. *)
Theorem C15_walk_follows_cables : forall dims conc nid fuel s h tr e p,
  walk dims (fun my h => torus_route dims conc my nid h) fuel s h = Some (tr, e, p) ->
  hops dims (length tr) s e.
Proof. intros. eapply walk_hops; eauto. Qed.
Print Assumptions C15_walk_follows_cables.
Example C15_ex :
  option_map (fun '(tr, e, p) => (map (fun c => (ch_switch c, ch_port c, ch_vc c)) tr, e, p))
    (walk [5; 4] (fun my h => torus_route [5; 4] 2 my 13 h) (S (minimal_distance [5; 4] 4 (13 / 2))) 4 hdr0)
  = Some ([(4, 0, 1); (0, 0, 0 + 1); (1, 2, 0)], 6, 5)
  /\ minimal_distance [5; 4] 4 (13 / 2) = 3 /\ 13 < prod [5; 4] * 2.
Proof. split; [vm_compute; reflexivity|]. split; [reflexivity|vm_compute; lia]. Qed.

(** ** C16: no cyclic wait under minimal routing *)
Theorem C16_torus_minimal_deadlock_free : forall dims conc, Forall (fun d => 0 < d) dims ->
  length dims <= 128 -> deadlock_free (waits_for dims conc hdr0 (minimal_policy dims conc)).
Proof. exact minimal_deadlock_free. Qed.
Print Assumptions C16_torus_minimal_deadlock_free.
Theorem C16_torus_positive_deadlock_free : forall dims conc, Forall (fun d => 0 < d) dims ->
  deadlock_free (waits_for dims conc false (positive_policy dims conc)).
Proof. exact positive_deadlock_free. Qed.
Print Assumptions C16_torus_positive_deadlock_free.
(** There are waits across the dateline: the theorem is not about an empty relation. *)
Example C16_ex : waits_for [4] 1 hdr0 (minimal_policy [4] 1) (Chan 3 0 1) (Chan 0 0 1)
  /\ waits_for [4] 1 hdr0 (minimal_policy [4] 1) (Chan 2 0 0) (Chan 3 0 1).
Proof.
  split.
  - exists 3, 1, (fun my h => torus_route [4] 1 my 1 h), 9, [Chan 3 0 1; Chan 0 0 1], 1, 2.
    split; [vm_compute; lia|]. split; [vm_compute; lia|]. split; [reflexivity|].
    split; [vm_compute; reflexivity|]. exists [], []. reflexivity.
  - exists 2, 0, (fun my h => torus_route [4] 1 my 0 h), 9, [Chan 2 0 0; Chan 3 0 1], 0, 2.
    split; [vm_compute; lia|]. split; [vm_compute; lia|]. split; [reflexivity|].
    split; [vm_compute; reflexivity|]. exists [], []. reflexivity.
Qed.

(** ** C17: the other torus routers deliver *)
Theorem C17_torus_valiant_delivers : forall dims conc s nid inter, Forall (fun d => 0 < d) dims ->
  s < prod dims -> nid / conc < prod dims -> inter < prod dims -> inter <> s ->
  let t := nid / conc in
  let bound := minimal_distance dims s inter + minimal_distance dims inter t in
  exists tr, walk dims (fun my h => valiant_route dims conc inter my nid h) (S bound) s vhdr0
      = Some (tr, t, nid mod conc + 2 * length dims) /\ length tr <= bound /\
    (** it went through the intermediate switch, or met its destination on a shortest path to it *)
    (In inter (map ch_switch tr) /\ length tr = bound \/
     length tr + minimal_distance dims t inter = minimal_distance dims s inter).
Proof. intros. apply valiant_delivers; auto. Qed.
Print Assumptions C17_torus_valiant_delivers.
Theorem C17_torus_ugal_delivers : forall dims conc s nid inter (choose : bool), Forall (fun d => 0 < d) dims ->
  s < prod dims -> nid / conc < prod dims -> inter < prod dims -> inter <> s ->
  let bound := if choose then minimal_distance dims s inter + minimal_distance dims inter (nid / conc)
               else minimal_distance dims s (nid / conc) in
  exists tr, walk dims (fun my h => ugal_route dims conc inter choose my nid h) (S bound) s vhdr0
      = Some (tr, nid / conc, nid mod conc + 2 * length dims) /\ length tr <= bound /\
    (if choose then
       In inter (map ch_switch tr) /\ length tr = bound \/
       length tr + minimal_distance dims (nid / conc) inter = minimal_distance dims s inter
     else length tr = bound).
Proof.
  intros. destruct choose; unfold bound.
  - apply ugal_nonmin_delivers; auto.
  - destruct (ugal_min_delivers dims conc nid H H1 inter _ s vhdr0 H0 (or_introl eq_refl) eq_refl) as (tr & Hw & Hl).
    exists tr. repeat split; auto. lia.
Qed.
Print Assumptions C17_torus_ugal_delivers.
Theorem C17_torus_positive_delivers : forall dims conc s nid w, Forall (fun d => 0 < d) dims ->
  s < prod dims -> nid / conc < prod dims ->
  exists tr, walk dims (fun my h => positive_route dims conc my nid h)
        (S (positive_distance dims s (nid / conc))) s w
      = Some (tr, nid / conc, nid mod conc + 2 * length dims)
    /\ length tr = positive_distance dims s (nid / conc).
Proof. intros. rewrite positive_distance_eq by auto. apply walk_positive; auto. Qed.
Print Assumptions C17_torus_positive_delivers.
Example C17_ex :
  option_map (fun r : list chan * nat * nat => let '(tr, e, p) := r in (length tr, e, p))
    (walk [5; 4] (fun my h => valiant_route [5; 4] 2 12 my 13 h) 7 4 vhdr0) = Some (6, 6, 5)
  /\ minimal_distance [5; 4] 4 12 + minimal_distance [5; 4] 12 (13 / 2) = 6
  /\ option_map (fun r : list chan * nat * nat => let '(tr, e, p) := r in (length tr, e, p))
    (walk [5; 4] (fun my h => positive_route [5; 4] 2 my 13 h) 4 4 false) = Some (3, 6, 5).
Proof. repeat split; vm_compute; reflexivity. Qed.

(** ** C59: Valiant routing and deadlock *)
Theorem C59_torus_valiant_cyclic_wait_refuted :
  exists dims conc, Forall (fun d => 2 <= d) dims /\ length dims <= 128 /\
    ~ deadlock_free (waits_for dims conc vhdr0 (valiant_policy dims conc)).
Proof. exists [8], 1. split; [repeat constructor|]. split; [simpl; lia|exact valiant_deadlock]. Qed.
Print Assumptions C59_torus_valiant_cyclic_wait_refuted.
(** What does hold: the channels used before the intermediate switch have no cyclic wait among
    themselves.  Missing: the channels used after it, where the claim is false. *)
Theorem C59_torus_valiant_first_phase_partial : forall dims conc, Forall (fun d => 0 < d) dims ->
  length dims <= 128 ->
  deadlock_free (fun a b => ch_vc a < 2 /\ ch_vc b < 2 /\
                            waits_for dims conc vhdr0 (valiant_policy dims conc) a b).
Proof. exact valiant_phase1_free. Qed.
Print Assumptions C59_torus_valiant_first_phase_partial.
Example C59_ex : vwait (Chan 5 0 3) (Chan 6 0 3) /\ vwait (Chan 7 0 1) (Chan 0 0 1).
Proof.
  split.
  - apply (vwait_by 5 0 1); try lia. vm_compute; reflexivity.
  - apply (vwait_by 3 7 6); try lia. vm_compute; reflexivity.
Qed.
