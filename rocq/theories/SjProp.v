(** Properties of the injection side of the SNAPPR NIC: C105, C106, C107. *)
From Coq Require Import List ZArith Bool Arith Lia Permutation.
From Verif Require Import PtModel PtProp SjModel SjSpec SjProof SjOrder SjRing.
Import ListNotations.
Local Open Scope Z_scope.

Lemma inv_accounted : forall back c buf0 next0 h s, 0 < c_mtu c -> 0 <= buf0 ->
  nrun (list_q back) c [] buf0 next0 h s -> distinct h -> accounted c buf0 h (ni_buf s) (negb (ni_copying s)).
Proof.
  intros back c buf0 next0 h s MTU BUF R D. pose proof (run_inv back c buf0 next0 MTU BUF h s R D) as V.
  split.
  - intros m M. destruct (i_sent _ _ _ _ V m M) as [[off I]|E].
    + destruct (i_queue _ _ _ _ V off m I) as [_ [k [_ [_ ->]]]]. exists (skipn k (cut (c_mtu c) m)). apply firstn_skipn.
    + exists []. rewrite app_nil_r. exact E.
  - exact (i_known _ _ _ _ V).
  - exact (i_buf _ _ _ _ V).
  - exact (i_room _ _ _ _ V).
  - intro ID. apply negb_true_iff in ID. destruct (i_idle _ _ _ _ V ID) as [E|[b [F L]]].
    + left. intros m M. destruct (i_sent _ _ _ _ V m M) as [[off I]|X]; [rewrite E in I; destruct I|exact X].
    + right. inversion F as [off m r Q X]; subst.
      destruct (i_queue _ _ _ _ V off m) as [S [k [K1 [K2 K3]]]]; [rewrite Q; left; reflexivity|].
      exists m, k, off, (Z.min (c_mtu c) (n_len m - off)), (Nat.eqb (Datatypes.S k) (pieces (c_mtu c) (n_len m))).
      split; [exact S|]. split; [exact K3|]. split; [|rewrite Z.min_comm; exact L].
      unfold cut. rewrite nth_error_map. replace (nth_error (seq 0 (pieces (c_mtu c) (n_len m))) k) with (Some k).
      * cbn [option_map]. rewrite K2. reflexivity.
      * symmetry. rewrite (nth_error_nth' _ 0%nat) by (rewrite seq_length; exact K1). rewrite seq_nth by exact K1. reflexivity.
Qed.

(** ** C105 *)

Lemma fifo_run : forall c buf0 next0 h s, nrun fifo_q c [] buf0 next0 h s -> nrun (list_q false) c [] buf0 next0 h s.
Proof. intros. exact H. Qed.

(** Queue "fifo": every message is cut into its pieces, nothing is injected twice or out
    of order, the buffer is never overcommitted, and the NIC rests only when it must. *)
Theorem nic_fifo_accounted : forall c buf0 next0 h s, 0 < c_mtu c -> 0 <= buf0 ->
  nrun fifo_q c [] buf0 next0 h s -> distinct h -> accounted c buf0 h (ni_buf s) (negb (ni_copying s)).
Proof. intros. eapply (inv_accounted false); eassumption. Qed.

(** The packets on the wire are the pieces of the messages in the order the messages were
    given to the NIC. *)
Theorem nic_fifo_order : forall c buf0 next0 h s, 0 < c_mtu c ->
  nrun fifo_q c [] buf0 next0 h s ->
  prefix (map tag (injected h)) (flat_map (tagged (c_mtu c)) (sent h)).
Proof.
  intros c buf0 next0 h s MTU R. destruct (fifo_inv c buf0 next0 h s MTU R) as [_ (done & k & S & I & _)].
  rewrite I, S, flat_map_app. destruct (ni_q s) as [|[off m] r]; cbn [map snd flat_map].
  - exists []. rewrite firstn_nil, !app_nil_r. reflexivity.
  - exists (skipn k (tagged (c_mtu c) m) ++ flat_map (tagged (c_mtu c)) (map snd r)).
    rewrite <- app_assoc. f_equal. rewrite app_assoc, firstn_skipn. reflexivity.
Qed.

(** Each call comes to an end, with packets for the messages given so far. *)
Theorem nic_fifo_returns : forall c buf0 next0 h s, 0 < c_mtu c -> 0 <= buf0 ->
  nrun fifo_q c [] buf0 next0 h s -> distinct h -> (forall m, In m (sent h) -> pkt_qos c m < c_levels c) ->
  exists ps s', nrun fifo_q c [] buf0 next0 (map Injected ps ++ h) s' /\ ni_copying s' = false.
Proof.
  intros c buf0 next0 h s MTU BUF R D QS. destruct (ni_copying s) eqn:CP; [|exists [], s; auto].
  apply (like_ends false fifo_q (fun _ => True) eq like_fifo c buf0 next0 [] MTU (todo_bytes (ni_q s)) h s s); auto.
  - repeat split.
  - intros off m I. apply QS. apply (i_queue _ _ _ _ (run_inv false c buf0 next0 MTU BUF h s (fifo_run _ _ _ _ _ R) D) off m I).
Qed.

Lemma accounted_drains : forall c buf0 h buf, 0 < c_mtu c -> c_mtu c <= buf0 -> accounted c buf0 h buf true ->
  credits h = (if c_flow c then bytes (injected h) else 0) -> all_injected c h.
Proof.
  intros c buf0 h buf MTU BUF [_ _ B _ ID] CR. destruct (ID eq_refl) as [H|(m & k & off & len & tail & _ & _ & E & L)]; [exact H|].
  exfalso. rewrite CR in B. apply nth_error_In in E. unfold cut in E. apply in_map_iff in E as [i [E _]].
  inversion E; subst. destruct (c_flow c); lia.
Qed.

(** When all credits are back and the buffer holds a packet, everything has been injected. *)
Theorem nic_fifo_drains : forall c buf0 next0 h s, 0 < c_mtu c -> c_mtu c <= buf0 ->
  nrun fifo_q c [] buf0 next0 h s -> distinct h -> ni_copying s = false ->
  credits h = (if c_flow c then bytes (injected h) else 0) -> all_injected c h.
Proof.
  intros c buf0 next0 h s MTU BUF R D ID CR. apply (accounted_drains c buf0 h (ni_buf s) MTU BUF); [|exact CR].
  change true with (negb false). rewrite <- ID. apply (nic_fifo_accounted c buf0 next0 h s); auto; lia.
Qed.

(** ** C106 *)

Lemma at_most_roomy : forall n h, (0 < n)%nat -> at_most (n - 1) h -> roomy (fun k => (k < n)%nat) h.
Proof. intros n h N H newer older E. specialize (H newer older E). lia. Qed.

Lemma ring_run : forall n c buf0 next0 h s, (0 < n)%nat -> 0 < c_mtu c -> 0 <= buf0 ->
  nrun ring_q c (ring_new n) buf0 next0 h s -> distinct h -> at_most (n - 1) h ->
  exists t, nrun (list_q true) c [] buf0 next0 h t /\ alike (rep n) s t.
Proof.
  intros n c buf0 next0 h s N MTU BUF R D AM.
  apply (like_run true ring_q (fun k => (k < n)%nat) (rep n) (like_ring n) c buf0 next0 (ring_new n) (rep_new n N) MTU BUF h s R D).
  apply at_most_roomy; assumption.
Qed.

(** Queue "round_robin" with at most 1023 unfinished messages: the same account. *)
Theorem nic_rr_accounted_partial : forall c buf0 next0 h s, 0 < c_mtu c -> 0 <= buf0 ->
  nrun ring_q c (ring_new rr_size) buf0 next0 h s -> distinct h -> at_most 1023 h ->
  accounted c buf0 h (ni_buf s) (negb (ni_copying s)).
Proof.
  intros c buf0 next0 h s MTU BUF R D AM.
  destruct (ring_run rr_size c buf0 next0 h s) as (t & RT & _ & B & _ & C); auto; [unfold rr_size; lia|].
  rewrite B, C. eapply (inv_accounted true); eassumption.
Qed.
Theorem nic_rr_returns_partial : forall c buf0 next0 h s, 0 < c_mtu c -> 0 <= buf0 ->
  nrun ring_q c (ring_new rr_size) buf0 next0 h s -> distinct h -> at_most 1023 h ->
  (forall m, In m (sent h) -> pkt_qos c m < c_levels c) ->
  exists ps s', nrun ring_q c (ring_new rr_size) buf0 next0 (map Injected ps ++ h) s' /\ ni_copying s' = false.
Proof.
  intros c buf0 next0 h s MTU BUF R D AM QS. destruct (ni_copying s) eqn:CP; [|exists [], s; auto].
  destruct (ring_run rr_size c buf0 next0 h s) as (t & RT & A); auto; [unfold rr_size; lia|].
  apply (like_ends true ring_q (fun k => (k < rr_size)%nat) (rep rr_size) (like_ring rr_size) c buf0 next0 (ring_new rr_size) MTU
    (todo_bytes (ni_q t)) h s t); auto.
  intros off m I. apply QS. apply (i_queue _ _ _ _ (run_inv true c buf0 next0 MTU BUF h t RT D) off m I).
Qed.
Theorem nic_rr_drains_partial : forall c buf0 next0 h s, 0 < c_mtu c -> c_mtu c <= buf0 ->
  nrun ring_q c (ring_new rr_size) buf0 next0 h s -> distinct h -> at_most 1023 h -> ni_copying s = false ->
  credits h = (if c_flow c then bytes (injected h) else 0) -> all_injected c h.
Proof.
  intros c buf0 next0 h s MTU BUF R D AM ID CR. apply (accounted_drains c buf0 h (ni_buf s) MTU BUF); [|exact CR].
  change true with (negb false). rewrite <- ID. apply (nic_rr_accounted_partial c buf0 next0 h s); auto; lia.
Qed.

(** Between two packets of a message, each other message that was unfinished at the time
    of the first one injects exactly one packet, and no others do. *)
Theorem nic_rr_fair_partial : forall c buf0 next0 mid p1 p2 old s, 0 < c_mtu c -> 0 <= buf0 ->
  nrun ring_q c (ring_new rr_size) buf0 next0 (Injected p2 :: mid ++ Injected p1 :: old) s ->
  distinct (Injected p2 :: mid ++ Injected p1 :: old) -> at_most 1023 (Injected p2 :: mid ++ Injected p1 :: old) ->
  np_id p2 = np_id p1 -> (forall p, In p (injected mid) -> np_id p <> np_id p1) ->
  Permutation (map n_id (unfinished old)) (np_id p1 :: map np_id (injected mid)).
Proof.
  intros c buf0 next0 mid p1 p2 old s MTU BUF R D AM E NI.
  destruct (ring_run rr_size c buf0 next0 _ s ltac:(unfold rr_size; lia) MTU BUF R D AM) as (t & RT & _).
  remember (Injected p2 :: mid ++ Injected p1 :: old) as h eqn:HE.
  revert HE. clear AM R s. induction RT as [| | |h s s' RT IH NC T|h s p s' RT IH NC T]; intro HE; try discriminate; [auto|].
  inversion HE; subst p h. pose proof (distinct_tail _ _ D) as D'.
  destruct (rr_between c buf0 next0 _ s MTU BUF RT D' mid p1 old eq_refl NI) as [O|(l0 & l1 & l2 & o & m & A & B & C & F)].
  - exfalso. apply turn_packet in T as (off & m & r & QE & W). cbv zeta in W. destruct W as (_ & PI & _).
    apply O. rewrite QE. left. cbn. congruence.
  - apply turn_packet in T as (off & x & r & QE & W). cbv zeta in W. destruct W as (_ & PI & _).
    pose proof (i_ids _ _ _ _ (run_inv true c buf0 next0 MTU BUF _ _ RT D')) as ND. rewrite QE in B.
    destruct l1 as [|e l1]; cbn in B; inversion B; subst.
    + rewrite app_nil_r in A. exact A.
    + exfalso. rewrite QE in ND. cbn in ND. apply NoDup_cons_iff in ND as [N _]. apply N.
      unfold ids. rewrite map_app. cbn. apply in_or_app. right. left. congruence.
Qed.

(** With 1024 unfinished messages the ring takes itself for empty: credits come back, the
    buffer has room, and the NIC rests with messages it has not injected. *)
Definition one (k : nat) : nmsg := {| n_id := k; n_len := 1; n_qos := 0; n_get := false |}.
Definition c1 : ncfg := {| c_mtu := 1; c_flow := true; c_levels := 1; c_get := -1; c_scatter := false |}.
Definition crowd (k : nat) : list nobs := map (fun i => Sent (one i)) (rev (seq 0 k)).
Lemma crowd_S : forall k, crowd (S k) = Sent (one k) :: crowd k.
Proof. intro k. unfold crowd. rewrite seq_S, rev_app_distr. reflexivity. Qed.
Lemma crowd_sent : forall k, sent (crowd k) = map one (seq 0 k).
Proof.
  induction k as [|k IH]; [reflexivity|]. rewrite crowd_S. cbn [sent]. rewrite IH, seq_S, map_app. reflexivity.
Qed.
Lemma crowd_injected : forall k, injected (crowd k) = [].
Proof. induction k as [|k IH]; [reflexivity|]. rewrite crowd_S. exact IH. Qed.
Lemma crowd_run : forall n k, (k < n)%nat -> exists s l, nrun ring_q c1 (ring_new n) 0 0 (crowd k) s /\
  ni_copying s = false /\ rep n (ni_q s) l /\ length l = k /\ ni_buf s = 0 /\ (forall e, In e l -> fst e = 0 /\ n_len (snd e) = 1).
Proof.
  intros n. induction k as [|k IH]; intro K.
  - eexists. exists []. split; [constructor|]. cbn. repeat split; try contradiction; try apply rep_new; try lia; reflexivity.
  - destruct IH as (s & l & R & C & P & L & B & E); [lia|]. rewrite crowd_S.
    pose proof (nrun_send ring_q c1 _ _ _ _ s (one k) R C ltac:(cbn; lia)) as R1.
    match type of R1 with nrun _ _ _ _ _ _ ?x => set (s1 := x) in R1 end.
    assert (P1 : rep n (ni_q s1) (l ++ [(0, one k)])) by (apply rep_insert; [exact P|lia]).
    assert (E1 : forall e, In e (l ++ [(0, one k)]) -> fst e = 0 /\ n_len (snd e) = 1).
    { intros e I. apply in_app_or in I as [I|[<-|[]]]; [apply E; exact I|cbn; auto]. }
    assert (T : copy_turn ring_q c1 s1 = Stop {| ni_q := ni_q s1; ni_buf := ni_buf s1; ni_next := ni_next s1; ni_copying := false |}).
    { unfold copy_turn. cbn [q_empty q_top ring_q]. rewrite (rep_empty _ _ _ P1).
      destruct (l ++ [(0, one k)]) as [|[off m] r] eqn:Q; [reflexivity|].
      rewrite (rep_top _ _ _ _ P1). destruct (E1 (off, m) (or_introl eq_refl)) as [X1 X2]. cbn in X1, X2. rewrite X1, X2.
      change (ni_buf s1) with (ni_buf s). rewrite B. reflexivity. }
    eexists. exists (l ++ [(0, one k)]). split; [eapply nrun_stop; [exact R1|reflexivity|exact T]|].
    split; [reflexivity|]. split; [exact P1|]. split; [rewrite app_length; cbn; lia|]. split; [exact B|exact E1].
Qed.
Lemma keep_all : forall A (l : list A), filter (fun _ => true) l = l.
Proof. induction l as [|x l IH]; [reflexivity|]. cbn [filter]. rewrite IH. reflexivity. Qed.
Theorem nic_rr_full_refuted : exists h s, nrun ring_q c1 (ring_new rr_size) 0 0 h s /\ distinct h /\
  ni_copying s = false /\ length (unfinished h) = 1024%nat /\ injected h = [] /\ c_mtu c1 <= ni_buf s.
Proof.
  destruct (crowd_run rr_size 1023) as (s & l & R & C & P & L & B & _); [unfold rr_size; lia|].
  pose proof (nrun_send ring_q c1 _ _ _ _ s (one 1023) R C ltac:(cbn; lia)) as R1.
  match type of R1 with nrun _ _ _ _ _ _ ?x => set (s1 := x) in R1 end.
  assert (EM : Nat.eqb (r_begin (ni_q s1)) (r_end (ni_q s1)) = true).
  { cbn [s1 ni_q q_insert ring_q ring_put r_begin r_end]. pose proof (p_slots _ _ _ P) as SL.
    destruct P as [_ PB _ PE _]. rewrite (wrap_mod rr_size) ; [|exact SL|rewrite PE; apply Nat.mod_upper_bound; unfold rr_size; lia].
    rewrite PE, L, mod_S by (unfold rr_size; lia). apply Nat.eqb_eq.
    replace (S (r_begin (ni_q s) + 1023)) with (r_begin (ni_q s) + 1 * rr_size)%nat by (unfold rr_size; lia).
    rewrite Nat.mod_add by (unfold rr_size; lia). symmetry. apply Nat.mod_small. exact PB. }
  assert (T : forall x, ni_q x = ni_q s1 -> copy_turn ring_q c1 x = Stop {| ni_q := ni_q x; ni_buf := ni_buf x; ni_next := ni_next x; ni_copying := false |}).
  { intros x X. unfold copy_turn. cbn [q_empty ring_q]. rewrite X, EM. reflexivity. }
  pose proof (nrun_stop ring_q c1 _ _ _ _ s1 _ R1 eq_refl (T s1 eq_refl)) as R2.
  pose proof (nrun_credit ring_q c1 _ _ _ _ _ 1 R2 eq_refl ltac:(lia)) as R3.
  match type of R3 with nrun _ _ _ _ _ _ ?x => set (s3 := x) in R3 end.
  pose proof (nrun_stop ring_q c1 _ _ _ _ s3 _ R3 eq_refl (T s3 eq_refl)) as R4.
  rewrite <- crowd_S in R4. eexists. eexists. split; [exact R4|].
  assert (SE : sent (Credited 1 :: crowd 1024) = map one (seq 0 1024)) by (cbn [sent]; apply crowd_sent).
  split; [unfold distinct; rewrite SE, map_map; cbn [one n_id]; rewrite map_id; apply seq_NoDup|].
  split; [reflexivity|]. split.
  - unfold unfinished. rewrite SE. cbn [injected]. rewrite crowd_injected. cbn [of_msg filter existsb negb].
    rewrite keep_all. rewrite map_length. apply seq_length.
  - split; [cbn [injected]; apply crowd_injected|]. cbn. rewrite B. lia.
Qed.

(** ** C107 *)

Lemma list_lane : forall back c buf0 next0 h s, 0 < c_mtu c -> 0 <= buf0 -> c_scatter c = false -> c_get c = -1 ->
  nrun (list_q back) c [] buf0 next0 h s -> distinct h ->
  forall m p, In m (sent h) -> In p (of_msg m (injected h)) ->
    np_lane p = n_qos m /\ np_qos p = n_qos m /\ n_qos m < c_levels c.
Proof.
  intros back c buf0 next0 h s MTU BUF SC G R.
  induction R as [|h s x R IH NC L|h s n R IH NC N|h s s' R IH NC T|h s q s' R IH NC T]; intros D m p M P.
  - destruct M.
  - cbn [sent injected] in *. pose proof (run_inv back c buf0 next0 MTU BUF _ _ R (distinct_tail _ _ D)) as V.
    apply in_app_or in M as [M|[<-|[]]]; [exact (IH (distinct_tail _ _ D) m p M P)|]. exfalso.
    apply filter_In in P as [P1 P2]. apply Nat.eqb_eq in P2. destruct (i_known _ _ _ _ V p P1) as [y [Y1 Y2]].
    unfold distinct in D. cbn in D. rewrite map_app in D. apply NoDup_remove_2 in D. rewrite app_nil_r in D.
    apply D. rewrite <- P2, <- Y2. apply in_map. exact Y1.
  - exact (IH D m p M P).
  - exact (IH D m p M P).
  - pose proof (distinct_tail _ _ D) as D'. pose proof (run_inv back c buf0 next0 MTU BUF _ _ R D') as V.
    cbn [sent injected] in *. rewrite of_msg_app in P. apply in_app_or in P as [P|P]; [exact (IH D' m p M P)|].
    apply filter_In in P as [[->|[]] P2]. apply Nat.eqb_eq in P2.
    apply turn_packet in T as (off & y & r & QE & W). cbv zeta in W. destruct W as (_ & PI & _ & QL & PQ & PLN & _).
    assert (y = m) as ->.
    { destruct (i_queue _ _ _ _ V off y) as [Y _]; [rewrite QE; left; reflexivity|]. eapply same_id; eauto. congruence. }
    rewrite SC in PLN. unfold pkt_qos in PQ, QL. rewrite G in PQ, QL. cbn in PQ, QL. auto.
Qed.

(** Without "scatter_qos" and without "rdma_get_qos" the lane is the qos of the message,
    and it exists unless that is negative. *)
Theorem nic_lane_partial : forall c buf0 next0 h,
  0 < c_mtu c -> 0 <= buf0 -> c_scatter c = false -> c_get c = -1 -> distinct h ->
  (exists s, nrun fifo_q c [] buf0 next0 h s) \/
  (exists s, nrun ring_q c (ring_new rr_size) buf0 next0 h s) /\ at_most 1023 h ->
  forall m p, In m (sent h) -> In p (of_msg m (injected h)) ->
    np_lane p = n_qos m /\ np_qos p = n_qos m /\ (0 <= n_qos m -> 0 <= np_lane p < c_levels c).
Proof.
  intros c buf0 next0 h MTU BUF SC G D R m p M P.
  assert (E : np_lane p = n_qos m /\ np_qos p = n_qos m /\ n_qos m < c_levels c).
  { destruct R as [[s R]|[[s R] AM]].
    - apply (list_lane false c buf0 next0 h s); auto.
    - destruct (ring_run rr_size c buf0 next0 h s) as (t & RT & _); auto; [unfold rr_size; lia|].
      apply (list_lane true c buf0 next0 h t); auto. }
  destruct E as (A & B & C). repeat split; auto; rewrite ?A; lia.
Qed.

(** With "scatter_qos" the packets go to the lanes in turn, whatever the queue. *)
Theorem nic_scatter : forall Q (I : iqueue Q) c q0 buf0 next0 h s, c_scatter c = true -> 0 <= next0 < c_levels c ->
  nrun I c q0 buf0 next0 h s ->
  map np_lane (injected h) = map (fun k => (next0 + Z.of_nat k) mod (c_levels c)) (seq 0 (length (injected h))).
Proof.
  intros Q I c q0 buf0 next0 h s SC N0 R.
  assert (G : ni_next s = (next0 + Z.of_nat (length (injected h))) mod (c_levels c) /\
    map np_lane (injected h) = map (fun k => (next0 + Z.of_nat k) mod (c_levels c)) (seq 0 (length (injected h)))).
  { induction R as [|h s x R IH NC L|h s n R IH NC N|h s s' R IH NC T|h s p s' R IH NC T].
    - cbn. split; [rewrite Z.add_0_r, Z.mod_small by lia; reflexivity|reflexivity].
    - exact IH.
    - exact IH.
    - unfold copy_turn in T. destruct (q_empty I (ni_q s)); [inversion T; subst; exact IH|].
      destruct (q_top I (ni_q s)) as [[off m]|]; [|discriminate]. destruct (_ <=? _).
      + destruct (inject c off m (ni_next s)) as [[? ?]|]; discriminate.
      + inversion T; subst. exact IH.
    - destruct IH as [IH1 IH2]. unfold copy_turn in T. destruct (q_empty I (ni_q s)); [discriminate|].
      destruct (q_top I (ni_q s)) as [[off m]|]; [|discriminate]. destruct (_ <=? _); [|discriminate].
      unfold inject in T. destruct (_ <=? pkt_qos c m); [discriminate|]. rewrite SC in T. inversion T; subst.
      cbn [ni_next injected]. rewrite app_length. cbn [length]. split.
      + rewrite IH1, Zplus_mod_idemp_l. f_equal. lia.
      + rewrite map_app, Nat.add_1_r, seq_S, map_app, IH2. cbn. rewrite IH1. reflexivity. }
  exact (proj2 G).
Qed.

(** "rdma_get_qos" changes the qos that is checked and carried by the packet, but not the
    lane: a get request can leave on another lane, or on one that does not exist. *)
Theorem nic_get_lane_refuted : exists c h s m p, nrun fifo_q c [] 64 0 h s /\ 0 < c_mtu c /\ c_scatter c = false /\
  0 <= c_get c < c_levels c /\ n_get m = true /\ In m (sent h) /\ In p (of_msg m (injected h)) /\
  np_qos p = c_get c /\ np_lane p <> np_qos p /\ c_levels c <= np_lane p.
Proof.
  exists {| c_mtu := 8; c_flow := true; c_levels := 2; c_get := 1; c_scatter := false |}.
  set (m := {| n_id := 0; n_len := 8; n_qos := 3; n_get := true |}).
  eexists [Injected _; Sent m]. eexists. exists m. eexists. split.
  - eapply nrun_packet; [eapply nrun_send; [constructor|reflexivity|cbn; lia]|reflexivity|reflexivity].
  - cbn. repeat (split; [lia || reflexivity|]). split; [left; reflexivity|]. split; [left; reflexivity|].
    cbn. repeat split; lia.
Qed.

(** ** Examples *)

(* Calls carried out one after the other *)
Inductive ncall : Type := CSend (m : nmsg) | CCredit (n : Z).
Fixpoint copy_all {Q} (I : iqueue Q) (c : ncfg) (fuel : nat) (h : list nobs) (s : nic Q) : option (list nobs * nic Q) :=
  match fuel with
  | O => None
  | S f => match copy_turn I c s with
           | Stop s' => Some (h, s')
           | Packet p s' => copy_all I c f (Injected p :: h) s'
           | Abort => None
           end
  end.
Fixpoint exec {Q} (I : iqueue Q) (c : ncfg) (es : list ncall) (h : list nobs) (s : nic Q) : option (list nobs * nic Q) :=
  match es with
  | [] => Some (h, s)
  | CSend m :: r =>
    if 0 <=? n_len m then
      match copy_all I c 100 (Sent m :: h) {| ni_q := q_insert I 0 m (ni_q s); ni_buf := ni_buf s; ni_next := ni_next s; ni_copying := true |} with
      | Some (h', s') => exec I c r h' s' | None => None end
    else None
  | CCredit n :: r =>
    if 0 <=? n then
      match copy_all I c 100 (Credited n :: h) {| ni_q := ni_q s; ni_buf := ni_buf s + n; ni_next := ni_next s; ni_copying := true |} with
      | Some (h', s') => exec I c r h' s' | None => None end
    else None
  end.
Lemma copy_all_run : forall Q (I : iqueue Q) c q0 b0 n0 fuel h s h' s', nrun I c q0 b0 n0 h s -> ni_copying s = true ->
  copy_all I c fuel h s = Some (h', s') -> nrun I c q0 b0 n0 h' s' /\ ni_copying s' = false.
Proof.
  intros Q I c q0 b0 n0. induction fuel as [|f IH]; intros h s h' s' R C E; [discriminate|]. cbn [copy_all] in E.
  destruct (copy_turn I c s) as [s1|p s1|] eqn:T; [| |discriminate].
  - inversion E; subst. split; [eapply nrun_stop; eassumption|].
    unfold copy_turn in T. destruct (q_empty I (ni_q s)); [inversion T; reflexivity|].
    destruct (q_top I (ni_q s)) as [[off m]|]; [|discriminate]. destruct (_ <=? _); [|inversion T; reflexivity].
    destruct (inject c off m (ni_next s)) as [[? ?]|]; discriminate.
  - apply (IH (Injected p :: h) s1); [eapply nrun_packet; eassumption| |exact E].
    unfold copy_turn in T. destruct (q_empty I (ni_q s)); [discriminate|].
    destruct (q_top I (ni_q s)) as [[off m]|]; [|discriminate]. destruct (_ <=? _); [|discriminate].
    destruct (inject c off m (ni_next s)) as [[? ?]|]; [|discriminate]. inversion T. reflexivity.
Qed.
Lemma exec_run : forall Q (I : iqueue Q) c q0 b0 n0 es h s h' s', nrun I c q0 b0 n0 h s -> ni_copying s = false ->
  exec I c es h s = Some (h', s') -> nrun I c q0 b0 n0 h' s' /\ ni_copying s' = false.
Proof.
  intros Q I c q0 b0 n0. induction es as [|e es IH]; intros h s h' s' R C E; [inversion E; subst; auto|].
  destruct e as [m|n]; cbn [exec] in E.
  - destruct (Z.leb_spec 0 (n_len m)); [|discriminate].
    destruct (copy_all _ _ _ _ _) as [[h1 s1]|] eqn:K; [|discriminate].
    apply copy_all_run with (q0 := q0) (b0 := b0) (n0 := n0) in K as [R1 C1]; [|apply nrun_send; assumption|reflexivity].
    exact (IH h1 s1 h' s' R1 C1 E).
  - destruct (Z.leb_spec 0 n); [|discriminate].
    destruct (copy_all _ _ _ _ _) as [[h1 s1]|] eqn:K; [|discriminate].
    apply copy_all_run with (q0 := q0) (b0 := b0) (n0 := n0) in K as [R1 C1]; [|apply nrun_credit; assumption|reflexivity].
    exact (IH h1 s1 h' s' R1 C1 E).
Qed.

Definition ex_c : ncfg := {| c_mtu := 8; c_flow := true; c_levels := 3; c_get := -1; c_scatter := false |}.
Definition ex_a : nmsg := {| n_id := 0; n_len := 20; n_qos := 1; n_get := false |}.
Definition ex_b : nmsg := {| n_id := 1; n_len := 13; n_qos := 2; n_get := true |}.
Definition ex_calls : list ncall := [CSend ex_a; CSend ex_b; CCredit 8; CCredit 8; CCredit 17].

Example ex_fifo : exists h s, nrun fifo_q ex_c [] 8 0 h s /\ ni_copying s = false /\ distinct h /\
  map tag (injected h) = [(0%nat, (0, 8, false)); (0%nat, (8, 8, false)); (0%nat, (16, 4, true)); (1%nat, (0, 8, false)); (1%nat, (8, 5, true))] /\
  map np_lane (injected h) = [1; 1; 1; 2; 2] /\ all_injected ex_c h /\ ni_buf s = 8.
Proof.
  destruct (exec fifo_q ex_c ex_calls [] {| ni_q := []; ni_buf := 8; ni_next := 0; ni_copying := false |}) as [[h s]|] eqn:E;
    [|vm_compute in E; discriminate].
  exists h, s. destruct (exec_run _ fifo_q ex_c [] 8 0 _ _ _ _ _ (nrun_new _ _ _ _ _) eq_refl E) as [R C].
  split; [exact R|]. split; [exact C|]. vm_compute in E. inversion E; subst. clear.
  split; [unfold distinct; cbn; repeat constructor; cbn; intuition lia|].
  split; [reflexivity|]. split; [reflexivity|]. split; [|reflexivity].
  intros m [<-|[<-|[]]]; vm_compute; reflexivity.
Qed.

(* The messages take turns. *)
Lemma at_most_sent : forall k h, (length (sent h) <= k)%nat -> at_most k h.
Proof.
  intros k h L newer older ->. unfold unfinished.
  apply (Nat.le_trans _ (length (sent older))).
  - generalize (fun m => negb (existsb np_tail (of_msg m (injected older)))). intro f.
    induction (sent older) as [|x l IH]; [reflexivity|]. cbn. destruct (f x); cbn; lia.
  - apply (Nat.le_trans _ (length (sent (newer ++ older)))); [|exact L]. clear L.
    induction newer as [|[m|n|p] newer IH]; cbn [app sent]; [lia| |exact IH|exact IH]. rewrite app_length. cbn. lia.
Qed.
Example ex_rr : exists h s, nrun ring_q ex_c (ring_new rr_size) 8 0 h s /\ ni_copying s = false /\
  distinct h /\ at_most 1023 h /\ all_injected ex_c h /\
  map tag (injected h) =
    [(0%nat, (0, 8, false)); (0%nat, (8, 8, false)); (1%nat, (0, 8, false)); (0%nat, (16, 4, true)); (1%nat, (8, 5, true))] /\
  exists newer mid p1 p2 old, h = newer ++ Injected p2 :: mid ++ Injected p1 :: old /\
    np_id p1 = 0%nat /\ np_id p2 = 0%nat /\ map np_id (injected mid) = [1%nat] /\ map n_id (unfinished old) = [0%nat; 1%nat].
Proof.
  destruct (exec ring_q ex_c ex_calls [] {| ni_q := ring_new rr_size; ni_buf := 8; ni_next := 0; ni_copying := false |}) as [[h s]|] eqn:E;
    [|vm_compute in E; discriminate].
  exists h, s. destruct (exec_run _ ring_q ex_c (ring_new rr_size) 8 0 _ _ _ _ _ (nrun_new _ _ _ _ _) eq_refl E) as [R C].
  split; [exact R|]. split; [exact C|]. vm_compute in E. inversion E; subst. clear.
  split; [unfold distinct; cbn; repeat constructor; cbn; intuition lia|].
  split; [apply at_most_sent; cbn; lia|].
  split; [intros m [<-|[<-|[]]]; vm_compute; reflexivity|]. split; [reflexivity|].
  eexists [Injected _], [Credited 17; Injected _; Credited 8], _, _, [Credited 8; Sent _; Injected _; Sent _].
  split; [reflexivity|]. repeat split.
Qed.

Print Assumptions nic_fifo_accounted.
Print Assumptions nic_fifo_order.
Print Assumptions nic_fifo_returns.
Print Assumptions nic_fifo_drains.
Print Assumptions nic_rr_accounted_partial.
Print Assumptions nic_rr_returns_partial.
Print Assumptions nic_rr_drains_partial.
Print Assumptions nic_rr_fair_partial.
Print Assumptions nic_rr_full_refuted.
Print Assumptions nic_lane_partial.
Print Assumptions nic_scatter.
Print Assumptions nic_get_lane_refuted.
