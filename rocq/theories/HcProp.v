(** Hypercube (Hamming graph), fully connected and star networks: the property theorems. *)
From Coq Require Import List ZArith Arith Bool Lia Relations.
From Verif Require Import TorusModel NetModel HcModel TorusSpec NetSpec TorusProof TorusRoute NetProof HcProof HcPar.
Import ListNotations.

Lemma divmod_in_map : forall (nid conc base : nat), 0 < conc ->
  In (nid, nid mod conc + base) (map (fun i => (nid / conc * conc + i, base + i)) (seq 0 conc)).
Proof.
  intros. apply in_map_iff. exists (nid mod conc). split.
  - f_equal; [|lia]. rewrite Nat.mul_comm. symmetry. apply Nat.div_mod; lia.
  - apply in_seq. pose proof (Nat.mod_upper_bound nid conc ltac:(lia)). lia.
Qed.
Lemma div_lt' : forall n conc nid, 0 < conc -> nid < n * conc -> nid / conc < n.
Proof. intros. apply Nat.div_lt_upper_bound; lia. Qed.

(** ** C18: hypercube wiring, distance and minimal routing *)
Theorem C18_hypercube_wiring : forall dims, Forall (fun d => 0 < d) dims ->
  cables_paired (hc_outports dims) (prod dims) /\ ports_unique (hc_outports dims) (prod dims) /\
  (forall s c, In c (hc_outports dims s) -> c_outport c < list_sum dims).
Proof.
  intros. split; [apply hc_paired; auto|]. split; [apply hc_unique; auto|].
  intros s c Hin. apply in_hc in Hin; auto. destruct Hin as (i & v & Hi & Hv & _ & ->).
  cbn [c_outport hcx]. unfold hc_port, dim_to_outport.
  pose proof (sum_firstn_S dims i Hi). pose proof (sum_firstn_mono dims (S i) (length dims) Hi).
  rewrite firstn_all in H1. lia.
Qed.
Print Assumptions C18_hypercube_wiring.

Theorem C18_hypercube_minimal_delivers : forall dims conc s nid, Forall (fun d => 0 < d) dims ->
  0 < conc -> s < prod dims -> nid < prod dims * conc ->
  exists tr port,
    gwalk (far_end (hc_outports dims) (prod dims)) (hc_route dims conc nid)
          (S (hc_distance dims s (nid / conc))) s tt = Some (tr, nid / conc, port) /\
    length tr = hc_distance dims s (nid / conc) /\
    In (nid, port) (hc_endpoints dims conc (nid / conc)).
Proof.
  intros. assert (T := div_lt' _ _ _ H0 H2).
  destruct (hc_walk dims conc nid H T _ s H1 eq_refl) as (tr & Hw & Hl).
  exists tr, (nid mod conc + list_sum dims). rewrite hc_distance_eq by auto. repeat split; auto.
  apply divmod_in_map; auto.
Qed.
Print Assumptions C18_hypercube_minimal_delivers.

(** minimalDistance is the number of coordinates in which the switches differ, and it is the
    distance in the cable graph. *)
Theorem C18_hypercube_distance_is_graph_distance : forall dims s t, Forall (fun d => 0 < d) dims ->
  s < prod dims -> t < prod dims ->
  hc_distance dims s t =
    length (filter (fun '(a, b) => negb (a =? b)) (combine (switch_coords dims s) (switch_coords dims t))) /\
  ghops (hc_outports dims) (hc_distance dims s t) s t /\
  forall n, ghops (hc_outports dims) n s t -> hc_distance dims s t <= n.
Proof.
  intros. split; [|split].
  - rewrite hc_distance_eq, !switch_coords_eq by auto. clear H0 H1. revert s t.
    induction dims; intros; simpl; auto. inversion H; subst. rewrite IHdims by auto.
    unfold ham. destruct (_ =? _); reflexivity.
  - destruct (hc_walk dims 1 t H ltac:(rewrite Nat.div_1_r; auto) _ s H0 eq_refl) as (tr & Hw & Hl).
    rewrite Nat.div_1_r in *. apply gwalk_hops in Hw. rewrite Hl, <- hc_distance_eq in Hw by auto. auto.
  - intros. apply hc_lower; auto.
Qed.
Print Assumptions C18_hypercube_distance_is_graph_distance.

Theorem C18_hypercube_minimal_deadlock_free : forall dims conc, Forall (fun d => 0 < d) dims -> 0 < conc ->
  deadlock_free (gwaits_for (far_end (hc_outports dims) (prod dims)) (prod dims) (prod dims * conc) tt
     (fun _ nid r => r = hc_route dims conc nid)).
Proof. exact hc_deadlock_free. Qed.
Print Assumptions C18_hypercube_minimal_deadlock_free.
Example C18_ex :
  option_map (fun '(tr, e, p) => (map (fun c => (ch_switch c, ch_port c)) tr, e, p))
    (gwalk (far_end (hc_outports [4; 3; 5]) 60) (hc_route [4; 3; 5] 2 95) 3 11 tt)
  = Some ([(11, 10)], 47, 13) /\ hc_distance [4; 3; 5] 11 47 = 1 /\ hc_distance [4; 3; 5] 12 47 = 3
  /\ Forall (fun d => 0 < d) [4; 3; 5] /\ 95 < prod [4; 3; 5] * 2.
Proof. repeat split; try (vm_compute; reflexivity); [repeat constructor | vm_compute; lia]. Qed.

(** ** C60: fully connected and star networks *)
Lemma in_fc : forall n s c, In c (fc_outports n s) <-> exists i, i < n /\ i <> s /\ c = Conn s (Z.of_nat i) i s.
Proof.
  intros. unfold fc_outports. rewrite in_flat_map. split.
  - intros (i & Hi & Hin). apply in_seq in Hi. destruct (Nat.eqb_spec i s); [contradiction|].
    destruct Hin as [<-|[]]. exists i. repeat split; auto; lia.
  - intros (i & Hi & Hne & ->). exists i. split; [apply in_seq; lia|].
    destruct (Nat.eqb_spec i s); [congruence|]. left; auto.
Qed.
Theorem C60_fully_connected_wiring : forall n,
  cables_paired (fc_outports n) n /\ ports_unique (fc_outports n) n /\
  (forall s t, s < n -> t < n -> s <> t -> exists c, In c (fc_outports n s) /\ c_dst c = Z.of_nat t).
Proof.
  intros n. assert (P : cables_paired (fc_outports n) n).
  { intros s c Hs Hin. apply in_fc in Hin. destruct Hin as (i & Hi & Hne & ->).
    exists i, (Conn i (Z.of_nat s) s i). repeat split; auto. apply in_fc. exists s. auto. }
  split; auto. split.
  - apply paired_unique; auto. intros. apply in_fc in H0, H1.
    destruct H0 as (i & _ & _ & ->), H1 as (j & _ & _ & ->). simpl in H2. subst; auto.
  - intros. exists (Conn s (Z.of_nat t) t s). split; auto. apply in_fc. exists t. auto.
Qed.
Print Assumptions C60_fully_connected_wiring.
Theorem C60_fully_connected_delivers : forall n conc s nid, 0 < conc -> s < n -> nid < n * conc ->
  exists tr port, gwalk (far_end (fc_outports n) n) (fc_route n conc nid) 2 s tt = Some (tr, nid / conc, port) /\
    length tr = (if s =? nid / conc then 0 else 1) /\
    In (nid, port) (fc_endpoints n conc (nid / conc)).
Proof.
  intros. assert (T := div_lt' _ _ _ H H1).
  assert (Hin : In (nid, n + nid mod conc) (fc_endpoints n conc (nid / conc))).
  { unfold fc_endpoints. rewrite Nat.add_comm. apply divmod_in_map; auto. }
  destruct (Nat.eqb_spec s (nid / conc)) as [E|E].
  - exists [], (n + nid mod conc). subst s. cbn [gwalk]. unfold fc_route at 1. rewrite Nat.eqb_refl. auto.
  - exists [Chan s (nid / conc) 0], (n + nid mod conc). cbn [gwalk]. unfold fc_route at 1.
    destruct (Nat.eqb_spec (nid / conc) s); [congruence|].
    assert (F : far_end (fc_outports n) n s (nid / conc) = Some (nid / conc)).
    { apply (far_end_in (fc_outports n) n s (Conn s (Z.of_nat (nid / conc)) (nid / conc) s)); auto.
      - apply in_fc. exists (nid / conc). auto.
      - intros c' Hc' Hp. apply in_fc in Hc'. destruct Hc' as (i & _ & _ & ->). simpl in Hp. subst; auto. }
    rewrite F. unfold fc_route. rewrite Nat.eqb_refl. auto.
Qed.
Print Assumptions C60_fully_connected_delivers.
Theorem C60_star_delivers : forall conc nid, 0 < conc -> nid < conc ->
  exists port, star_route nid 0 tt = Eject port /\ In (nid, port) (star_endpoints conc 0).
Proof.
  intros. exists nid. split; auto. apply in_map_iff. exists nid. split; auto. apply in_seq. lia.
Qed.
Print Assumptions C60_star_delivers.
Example C60_ex : gwalk (far_end (fc_outports 7) 7) (fc_route 7 3 14) 2 1 tt = Some ([Chan 1 4 0], 4, 9)
  /\ 14 < 7 * 3.
Proof. split; [vm_compute; reflexivity|lia]. Qed.

(** ** C61: progressive adaptive routing on the 3-d hypercube.  [dec] is any adaptive behaviour:
    at every switch and for every header, which port looks congested and which coordinates the
    random draws give. *)
Definition par_sizes (x y z conc : nat) : Prop :=
  0 < x <= 64 /\ 0 < y <= 64 /\ 0 < z <= 64 /\ x * y * z <= 2 ^ 24 /\ conc + (x + y + z) <= 2 ^ 16.

Theorem C61_par_delivers : forall x y z conc dec s nid, par_sizes x y z conc -> 0 < conc ->
  draws_ok x y z dec -> s < x * y * z -> nid < x * y * z * conc ->
  exists tr port,
    gwalk (far_end (hc_outports [x; y; z]) (x * y * z)) (par_route x y z conc nid dec) 7 s phdr0
      = Some (tr, nid / conc, port) /\
    length tr <= 6 /\ map ch_vc tr = seq 0 (length tr) /\
    In (nid, port) (hc_endpoints [x; y; z] conc (nid / conc)).
Proof.
  intros x y z conc dec s nid (Hx & Hy & Hz & Hp & Hc) H0 HD Hs Hn.
  assert (E : prod [x; y; z] = x * y * z) by (simpl; lia).
  pose proof (Nat.mod_upper_bound nid conc ltac:(lia)).
  destruct (par_delivers x y z conc nid dec Hx Hy Hz) with (s := s) as (tr & Hw & Hl & Hv); auto; try (rewrite E; auto).
  - apply div_lt'; auto.
  - lia.
  - rewrite E in Hw. exists tr, (nid mod conc + (x + y + z)). repeat split; auto.
    replace (x + y + z) with (list_sum [x; y; z]) by (simpl; lia). apply divmod_in_map; auto.
Qed.
Print Assumptions C61_par_delivers.

Theorem C61_par_deadlock_free : forall x y z conc, par_sizes x y z conc -> 0 < conc ->
  deadlock_free (gwaits_for (far_end (hc_outports [x; y; z]) (x * y * z)) (x * y * z) (x * y * z * conc) phdr0
     (fun _ nid r => exists dec, draws_ok x y z dec /\ r = par_route x y z conc nid dec)).
Proof.
  intros x y z conc Hsz Hc. apply ranked_acyclic with (fun c => (ch_vc c, 0)).
  intros a b (s & nid & r & fuel & tr & e & p & Hs & Hn & (dec & Hd & ->) & Hw & Hcon).
  destruct (C61_par_delivers x y z conc dec s nid Hsz Hc Hd Hs Hn) as (tr' & p' & Hw' & _ & Hv & _).
  assert (tr' = tr).
  { pose proof (gwalk_more _ _ _ _ (fuel + 7) _ _ _ Hw ltac:(lia)).
    pose proof (gwalk_more _ _ _ _ (fuel + 7) _ _ _ Hw' ltac:(lia)). congruence. }
  subst tr'. left. cbn [fst]. eapply seq_consecutive; eauto.
Qed.
Print Assumptions C61_par_deadlock_free.
(** A packet that leaves the minimal path at the second switch: six channels are possible, here five. *)
Example C61_ex :
  let dec := fun my (h : phdr) => Decide (my =? 0) 1 (if my =? 3 then 1 else 0) 1 in
  option_map (fun '(tr, e, p) => (map (fun c => (ch_switch c, ch_port c, ch_vc c)) tr, e, p))
    (gwalk (far_end (hc_outports [4; 3; 3]) 36) (par_route 4 3 3 1 35 dec) 7 0 phdr0)
  = Some ([(0, 3, 0); (3, 5, 1); (7, 8, 2); (19, 6, 3); (23, 9, 4)], 35, 10)
  /\ par_sizes 4 3 3 1.
Proof.
  split; [vm_compute; reflexivity|].
  pose proof (Nat.pow_le_mono_r 2 6 24 ltac:(lia) ltac:(lia)) as A. change (2 ^ 6) with 64 in A.
  pose proof (Nat.pow_le_mono_r 2 6 16 ltac:(lia) ltac:(lia)) as B. change (2 ^ 6) with 64 in B.
  unfold par_sizes; lia.
Qed.
(** Such decisions exist for every size: draw the next coordinate round the ring. *)
Example C61_draws_exist : forall x y z, 0 < x -> 0 < y -> 0 < z ->
  draws_ok x y z (fun my _ => let c := switch_coords [x; y; z] my in
     Decide false ((nth 0 c 0 + 1) mod x) ((nth 1 c 0 + 1) mod y) ((nth 2 c 0 + 1) mod z)).
Proof.
  intros. assert (P : pos_dims [x; y; z]) by (repeat constructor; auto).
  intros my h c. subst c. rewrite switch_coords_eq by auto. cbn [nth coords d_x d_y d_z].
  assert (A : forall a d, 2 <= d -> (a mod d + 1) mod d < d /\ (a mod d + 1) mod d <> a mod d).
  { intros a d Hd. split; [apply Nat.mod_upper_bound; lia|]. pose proof (Nat.mod_upper_bound a d ltac:(lia)).
    destruct (Nat.eq_dec (a mod d + 1) d) as [E|E]; [rewrite E, Nat.mod_same; lia|rewrite Nat.mod_small; lia]. }
  repeat split; intros; apply A; auto.
Qed.
