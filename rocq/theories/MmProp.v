(** Memory: C143 (LogP), C144 (time of a computation), C145 (PISCES), C146 (flows of SNAPPR), C147 (channels
    of SNAPPR). *)
From Coq Require Import List NArith Bool Arith Lia Permutation.
From Verif Require Import MmModel MmProof MmSn.
Import ListNotations.
Open Scope N_scope.

(** C143: accesses of LogP memory are served one after the other, each takes the latency and its size times the
    sum of the two byte delays; an access starts at once or when an earlier one has ended. *)
Definition duration (lat bd : N) (a : access) : N := lat + a_size a * (bd + a_req a).
Lemma flows_after lat bd l : forall last x, In x (flows lat bd last l) ->
  last + duration lat bd (fst x) <= snd x /\ a_at (fst x) + duration lat bd (fst x) <= snd x.
Proof.
  induction l as [|a t IH]; intros last x I; [contradiction|].
  cbn [flows new_access] in I. destruct I as [<-|I].
  - unfold duration. cbn [fst snd]. lia.
  - apply IH in I. split; [|tauto]. lia.
Qed.
Theorem logp_memory_serial : forall lat bd l,
  map fst (flows lat bd 0 l) = l /\
  ForallOrdPairs (fun x y => snd x + duration lat bd (fst y) <= snd y) (flows lat bd 0 l) /\
  forall p x q, flows lat bd 0 l = p ++ x :: q ->
    a_at (fst x) + duration lat bd (fst x) <= snd x /\
    (snd x = a_at (fst x) + duration lat bd (fst x) \/
     exists y, In y p /\ snd x = snd y + duration lat bd (fst x)).
Proof.
  intros lat bd l. split; [|split].
  - generalize 0. induction l as [|a t IH]; intros last; auto. simpl. f_equal. apply IH.
  - generalize 0. induction l as [|a t IH]; intros last; simpl; constructor; auto.
    apply Forall_forall. intros y I. apply flows_after in I. simpl. lia.
  - intros p x q E. split.
    + apply (flows_after lat bd l 0 x). rewrite E. apply in_or_app. right. left. auto.
    + assert (G : snd x = a_at (fst x) + duration lat bd (fst x) \/ snd x = 0 + duration lat bd (fst x) \/
                exists y, In y p /\ snd x = snd y + duration lat bd (fst x)).
      { revert p E. generalize 0. induction l as [|a t IH]; intros last p E; [destruct p; discriminate|].
        cbn [flows new_access] in E. destruct p as [|z p]; simpl in E; injection E; intros Et Ez.
        - subst x. unfold duration. cbn [fst snd]. lia.
        - destruct (IH _ _ Et) as [H|[H|(y & I & H)]]; auto.
          + right. right. exists z. split; [left; auto|]. rewrite <- Ez. cbn [snd]. lia.
          + right. right. exists y. split; [right|]; auto. }
      destruct G as [G|[G|G]]; auto. left.
      assert (K : In x (flows lat bd 0 l)) by (rewrite E; apply in_or_app; right; left; auto).
      apply flows_after in K. lia.
Qed.
Print Assumptions logp_memory_serial.
Example logp_memory_example :
  map snd (flows 5 2 0 [mkaccess 10 100 1; mkaccess 20 50 0; mkaccess 1000 10 3]) = [315; 420; 1055].
Proof. vm_compute. reflexivity. Qed.

(** C144: a computation with memory takes at least the time of its instructions and at least the time of its
    memory accesses, and on an idle memory not more than both. *)
Lemma div_bounds t n : 0 < n -> t / n * n <= t /\ t < t / n * n + n.
Proof.
  intros H. pose proof (N.div_mod t n ltac:(lia)) as D. pose proof (N.mod_lt t n ltac:(lia)) as L. revert D L.
  generalize (t / n) (t mod n). intros a b D L. lia.
Qed.
(** Missing: memory faster than one byte in a tick, for which it is false (below). *)
Theorem compute_time_partial : forall tf ti ngl lat bd last now w,
  0 < bd -> ngl < bytes w ->
  let d := fst (compute tf ti ngl lat bd last now w) in
  instr_time tf ti w <= d /\ lat + bd * bytes w <= d /\
  (last <= now -> d <= instr_time tf ti w + (lat + bd * bytes w)).
Proof.
  intros tf ti ngl lat bd last now w B G. unfold compute. apply N.leb_gt in G as G'. rewrite G'.
  unfold new_access. cbn zeta. cbn [fst]. generalize (instr_time tf ti w). intros t.
  destruct (div_bounds t (bytes w) ltac:(lia)) as [D1 D2]. revert D1 D2. generalize (t / bytes w). intros q D1 D2.
  rewrite N.mul_add_distr_r.
  assert (bytes w <= bd * bytes w) by nia. lia.
Qed.
Print Assumptions compute_time_partial.
(** With a memory of more than one byte in a tick a computation of 1000 ticks is done in no time. *)
Theorem compute_time_refuted : exists tf ti ngl lat bd now w,
  instr_time tf ti w = 1000 /\ fst (compute tf ti ngl lat bd 0 now w) = 0.
Proof. exists 1, 1, 64, 0, 0, 10, (mkwork 1000 0 1 2000). split; reflexivity. Qed.
Print Assumptions compute_time_refuted.
Example compute_time_example :
  fst (compute 10 5 64 7 3 0 100 (mkwork 1000 400 2 500)) = 7 + (12 + 3) * 500 /\
  instr_time 10 5 (mkwork 1000 400 2 500) = 6000 /\
  fst (compute 10 5 64 7 3 0 100 (mkwork 1000 400 2 64)) = 6000.
Proof. vm_compute. auto. Qed.

(** C145: in PISCES memory the callback of a flow is executed once, after packets of the packet size and a rest
    that add up to the flow; channels are not lost. *)
Definition plain (o : op) : Prop := match o with Fire _ _ r => r = [] | _ => True end.
Lemma run_subs p l : forall s s', Forall plain l -> run p l s = Some s' -> subs s' = subs s ++ flat_map op_flows l.
Proof.
  induction l as [|o t IH]; intros s s' F H; [inversion H; subst; simpl; rewrite app_nil_r; auto|].
  cbn [run flat_map] in *. inversion F; subst. destruct (step p o s) as [s1|] eqn:E; [|discriminate].
  rewrite (IH _ _ H3 H), app_assoc. f_equal. destruct o as [id k|id k|i g r].
  - simpl in E. inversion E; subst. apply (flows_subs p [(id, k)] s).
  - simpl in E. unfold access_request in E. destruct (p <? k); [discriminate|]. inversion E; subst.
    destruct (avail s); simpl; rewrite app_nil_r; auto.
  - simpl in H2. subst r. simpl. rewrite app_nil_r. rewrite step_fire in E.
    destruct (nth_error (evs s) i) as [e|]; [|discriminate]. apply some_inj in E. subst s1.
    destruct e; unfold fire, data_arrived, callback; cbn [fold_left]; rewrite ?free_subs; auto.
    match goal with |- context [if ?b then _ else _] => destruct b end; rewrite ?free_subs; auto.
Qed.

(** Missing: flows of packet_size + 4 GB and more and accessRequest, for which it is false (below). *)
Theorem pisces_memory_partial : forall n p l s, (0 < n)%nat -> 0 < p < 2 ^ 31 ->
  Forall flow_op l -> Forall (fun x => snd x < p + 2 ^ 32) (flat_map op_flows l) ->
  run p l (pm0 n) = Some s ->
  (Forall plain l -> subs s = flat_map op_flows l) /\
  (exists rest, Permutation (subs s) (map (fun x => (fst x, total (snd x))) (done s) ++ rest) /\
                (evs s = [] -> rest = [])) /\
  Forall (fun x => exists k r, snd x = repeat p k ++ [r] /\ r <= p /\ (0 < total (snd x) -> 0 < r)) (done s) /\
  (exists busy, Permutation (avail s ++ busy) (seq 0 n) /\ (evs s = [] -> busy = [])) /\
  total (map op_fires l) <= costs p (subs s) /\
  (evs s = [] -> total (map op_fires l) = costs p (subs s)).
Proof.
  intros n p l s N P O G H. pose proof (run_inv n p l P O G _ _ (pm0_inv n p) H) as I.
  destruct (run_pot n p l P O G _ _ (pm0_inv n p) H) as (r & Sr & Q). simpl in Sr. rewrite <- Sr in Q.
  destruct I as [S C T F E D].
  assert (K : evs s = [] -> stalled s = []).
  { intros e. rewrite e in C. simpl in C. rewrite app_nil_r in C. destruct T as [T|T]; auto. rewrite T in C.
    apply Permutation_nil in C. destruct n; [lia|discriminate]. }
  assert (Z : pot p (pm0 n) = 0) by reflexivity.
  split; [intros Pl; apply (run_subs p l _ _ Pl H)|]. split; [|split; [|split; [|split]]].
  - exists (flat_map (pend (chans s)) (evs s) ++ flat_map aflow (stalled s)). split; auto.
    intros e. rewrite (K e), e. auto.
  - auto.
  - exists (flat_map chan (evs s)). split; auto. intros ->. auto.
  - lia.
  - intros e. unfold pot in Q at 1. rewrite (K e), e in Q. simpl in Q. unfold costs in Q at 1. simpl in Q. lia.
Qed.
Print Assumptions pisces_memory_partial.

Example pisces_memory_example :
  match run 100 [Flow 1 250; Flow 2 80; Flow 3 130; Fire 0 0 []; Fire 0 0 [(4%nat, 50)]; Fire 0 0 []; Fire 0 0 [];
                 Fire 0 0 []; Fire 0 0 []; Fire 0 0 []; Fire 0 0 []; Fire 0 0 []] (pm0 2) with
  | Some s => (done s, evs s, length (avail s), costs 100 (subs s))
  | None => ([], [], 0%nat, 0)
  end = ([(2%nat, [80]); (1%nat, [100; 100; 50]); (3%nat, [100; 30]); (4%nat, [50])], [], 2%nat, 9).
Proof. vm_compute. reflexivity. Qed.

(** A flow of packet_size + 4 GB or more never ends. *)
Lemma large_step p g s ch k : 0 < p < 2 ^ 31 -> evs s = [Data ch k] ->
  c_arrived (chans s ch) + k + 2 ^ 32 <= c_total (chans s ch) ->
  exists s' k', step p (Fire 0 g []) s = Some s' /\ evs s' = [Data ch k'] /\ done s' = done s /\
    c_arrived (chans s' ch) + k' + 2 ^ 32 <= c_total (chans s' ch).
Proof.
  intros P E H. rewrite step_fire, E. cbn [nth_error]. unfold fire, data_arrived, removed. rewrite E.
  cbn [chans avail stalled evs subs done firstn skipn app].
  set (c := chans s ch) in *.
  destruct (N.eqb_spec (c_arrived c + k) (c_total c)) as [Q|Q]; [lia|].
  eexists _, _. split; [reflexivity|]. cbn [evs done chans]. split; [reflexivity|]. split; [reflexivity|].
  rewrite setc_same. cbn [c_arrived c_total].
  assert (B : exists r, c_total c = c_arrived c + k + r /\ 2 ^ 32 <= r).
  { exists (c_total c - (c_arrived c + k)). lia. }
  destruct B as (r & B & R). replace (c_total c - (c_arrived c + k)) with r by lia.
  pose proof (N.div_mod r (2 ^ 32) ltac:(discriminate)) as DM.
  assert (1 <= r / 2 ^ 32) by (apply N.div_le_lower_bound; [discriminate|lia]).
  assert (2 ^ 32 * 1 <= 2 ^ 32 * (r / 2 ^ 32)) by (apply N.mul_le_mono_l; auto).
  assert (N.min p (r mod 2 ^ 32) <= r mod 2 ^ 32) by lia.
  generalize dependent (r / 2 ^ 32). generalize dependent (r mod 2 ^ 32). intros m q. intros. lia.
Qed.
Theorem pisces_memory_large : forall n p id size k g, (0 < n)%nat -> 0 < p < 2 ^ 31 -> p + 2 ^ 32 <= size ->
  exists s, run p (Flow id size :: repeat (Fire 0 g []) k) (pm0 n) = Some s /\
            done s = [] /\ length (evs s) = 1%nat.
Proof.
  intros n p id size k g N P L. cbn [run step].
  assert (H : exists ch k', evs (access_flow p id size (pm0 n)) = [Data ch k'] /\
     done (access_flow p id size (pm0 n)) = [] /\
     c_arrived (chans (access_flow p id size (pm0 n)) ch) + k' + 2 ^ 32 <= c_total (chans (access_flow p id size (pm0 n)) ch)).
  { unfold access_flow, start. destruct (avail (pm0 n)) as [|ch t] eqn:A.
    - exfalso. simpl in A. apply (f_equal (@length nat)) in A. rewrite rev_length, seq_length in A. simpl in A. lia.
    - destruct (N.leb_spec size p); [lia|]. exists ch, p. cbn [evs done chans]. split; [reflexivity|].
      split; [reflexivity|]. rewrite setc_same. cbn [c_arrived c_total]. lia. }
  generalize dependent (access_flow p id size (pm0 n)). induction k as [|k IH]; intros s (ch & k' & E & D & B).
  - exists s. rewrite E. auto.
  - destruct (large_step p g s ch k' P E B) as (s' & k2 & S1 & E1 & D1 & B1). cbn [repeat run]. rewrite S1.
    apply IH. exists ch, k2. rewrite D1. auto.
Qed.
Print Assumptions pisces_memory_large.
(** ... for example with the packet size that the default of 100 GB gives as an int. *)
Theorem pisces_memory_large_refuted : exists size, forall k,
  exists s, run 1215752192 (Flow 1 size :: repeat (Fire 0 0 []) k) (pm0 8) = Some s /\
            done s = [] /\ length (evs s) = 1%nat.
Proof.
  exists (1215752192 + 2 ^ 32). intros k. apply pisces_memory_large; [lia|split; reflexivity|lia].
Qed.
Print Assumptions pisces_memory_large_refuted.

(** A request for a packet takes a channel and does not give it back: after as many requests as there are
    channels, all of them answered, an access waits for ever. *)
Fixpoint requests (m : nat) : list op :=
  match m with O => [] | S k => Req m 10 :: Fire 0 0 [] :: requests k end.
Lemma requests_run p m : 10 <= p -> forall s a, avail s = a -> length a = m -> evs s = [] ->
  exists s', run p (requests m) s = Some s' /\ avail s' = [] /\ evs s' = [] /\ stalled s' = stalled s /\
             length (done s') = (length (done s) + m)%nat.
Proof.
  intros P. induction m as [|m IH]; intros s a A La E.
  - exists s. destruct a; [|discriminate]. simpl. rewrite Nat.add_0_r. auto.
  - destruct a as [|ch t]; [discriminate|]. cbn [requests run step]. unfold access_request.
    destruct (N.ltb_spec p 10); [lia|]. rewrite A, E. cbn [evs nth_error app firstn skipn]. unfold callback. cbn [fold_left].
    cbn [avail stalled chans evs subs done firstn skipn app].
    match goal with |- context [run p _ ?x] => destruct (IH x t) as (s' & R & A' & E' & S' & D') end; auto.
    exists s'. split; auto. split; auto. split; auto. split; auto. rewrite D'. cbn [done]. rewrite app_length. simpl. lia.
Qed.
Theorem pisces_memory_request_refuted : forall n, exists s,
  run 100 (requests n ++ [Flow 99 10]) (pm0 n) = Some s /\ length (done s) = n /\
  evs s = [] /\ stalled s = [AFlow 99 10] /\ avail s = [].
Proof.
  intros n. destruct (requests_run 100 n ltac:(lia) (pm0 n) (rev (seq 0 n)) eq_refl) as (s & R & A & E & S & D).
  - rewrite rev_length, seq_length. auto.
  - reflexivity.
  - assert (K : forall l1 l2 s0 s1, run 100 l1 s0 = Some s1 -> run 100 (l1 ++ l2) s0 = run 100 l2 s1).
    { induction l1 as [|o t IH]; simpl; intros l2 s0 s1 H; [congruence|].
      destruct (step 100 o s0); [apply IH; auto|discriminate]. }
    rewrite (K _ _ _ _ R). cbn [run step]. unfold access_flow. rewrite A.
    eexists. split; [reflexivity|]. cbn [done evs stalled avail]. rewrite D, E, S. auto.
Qed.
Print Assumptions pisces_memory_request_refuted.

(** C146: in SNAPPR memory the callback of a flow is executed once, after packets that add up to the flow, not
    before all requests were made and the last packet was sent; the memory does not stop before. *)
Theorem snappr_memory_flows : forall nch mtu d l s, (0 < nch)%nat -> 0 < mtu ->
  srun nch mtu d l sm0 = Some s ->
  (exists rest, Permutation (flat_map sub_of l)
      (map (fun x => (s_t0 (snd x), snd (fst x), total (s_pieces (snd x)), s_rd (snd x))) (fdone s) ++ rest) /\
     (sevs s = [] -> rest = [])) /\
  (forall t id f, In (t, id, f) (fdone s) ->
     (s_pieces f = [] \/ exists r m, s_pieces f = r :: repeat mtu m /\ 0 < r <= mtu) /\
     s_t0 f + s_rd f * total (s_pieces f) + d * last (s_pieces f) 0 <= t) /\
  (sevs s <> [] -> exists i s', sstep nch mtu d (SoFire i) s = Some s') /\
  total (map sop_fire l) <= total (map (sop_cost mtu) l) /\
  (sevs s = [] -> total (map sop_fire l) = total (map (sop_cost mtu) l)).
Proof.
  intros nch mtu d l s C M H. pose proof (srun_sinv nch mtu d l M _ _ _ (sm0_sinv mtu d) H) as I. simpl in I.
  pose proof (srun_pot nch mtu d l M _ _ _ (sm0_sinv mtu d) H) as P. change (spot mtu sm0) with 0 in P.
  split; [|split; [|split; [|split]]].
  - exists (flat_map (einfo (sflows s)) (sevs s)). split; [|intros ->; auto].
    rewrite (j_subs _ _ _ _ I) at 1. apply Permutation_app_tail.
    rewrite (map_ext_in (fun x : N * nat * sflow => finfo (snd x))
               (fun x => (s_t0 (snd x), snd (fst x), total (s_pieces (snd x)), s_rd (snd x)))); auto.
    intros [[t id] f] J. pose proof (j_done _ _ _ _ I) as D. rewrite Forall_forall in D. specialize (D _ J).
    destruct D as (D1 & D2 & _). unfold finfo. cbn [fst snd] in *. rewrite D1, D2, N.add_0_r. auto.
  - intros t id f J. pose proof (j_done _ _ _ _ I) as D. rewrite Forall_forall in D. specialize (D _ J).
    destruct D as (_ & _ & D & T). cbn [fst snd] in *. split; auto.
    destruct D as [D|(r & m & q & D & R & _)]; auto. right. eauto.
  - apply (progress nch mtu d _ s I). apply (srun_late nch mtu d l sm0 s); auto. constructor.
  - lia.
  - intros e. unfold spot in P at 1. rewrite e in P. simpl in P. lia.
Qed.
Print Assumptions snappr_memory_flows.

(** C147: a channel of SNAPPR memory serves its requests one after the other with its byte delay, at once if
    it is free; the channels are used in turn; a request of the NIC is answered once, when it is served. *)
Theorem snappr_memory_channels : forall nch mtu d l s, (0 < nch)%nat -> 0 < mtu ->
  srun nch mtu d l sm0 = Some s ->
  ForallOrdPairs (fun x y => v_issue x <= v_issue y /\
     (v_ch x = v_ch y -> v_start x + d * rbytes (v_req x) <= v_start y)) (log s) /\
  (forall a v b, log s = a ++ v :: b -> v_issue v <= v_start v /\
     (v_start v = v_issue v \/
      exists x, In x a /\ v_ch x = v_ch v /\ v_start v = v_start x + d * rbytes (v_req x))) /\
  (forall i v, nth_error (log s) i = Some v -> v_ch v = (i mod nch)%nat) /\
  map (fun x => (snd (fst x), snd x)) (flat_map nic_served (log s)) = flat_map nic_of l /\
  (exists rest, Permutation (flat_map nic_served (log s)) (ndone s ++ rest) /\ (sevs s = [] -> rest = [])).
Proof.
  intros nch mtu d l s C M H. pose proof (srun_cinv nch mtu d l C _ _ (sm0_cinv nch d C) H) as [A B O L S F R].
  assert (N0 : Ninv [] sm0) by (split; simpl; auto).
  pose proof (srun_ninv nch mtu d l M _ _ _ _ (sm0_sinv mtu d) N0 H) as [N1 N2]. simpl in N2.
  repeat split; auto.
  - apply (S _ _ _ H0).
  - apply (S _ _ _ H0).
  - exists (flat_map nic_event (sevs s)). split; auto. intros ->. auto.
Qed.
Print Assumptions snappr_memory_channels.

Example snappr_memory_example :
  match srun 2 100 3 [SoFlow 10 1 250 2; SoNic 20 7 64; SoFire 1; SoFlow 30 2 0 5; SoFire 1; SoFire 0; SoFire 0;
                      SoFire 0; SoFire 0; SoFire 0; SoFire 0; SoFire 0] sm0 with
  | Some s => (map (fun x => (fst x, s_pieces (snd x))) (fdone s), ndone s,
               map (fun v => (v_ch v, v_start v)) (log s), sevs s)
  | None => ([], [], [], [])
  end = ([(30, 2%nat, []); (810, 1%nat, [50; 100; 100])], [(20, 7%nat, 64)],
         [(0%nat, 20); (1%nat, 110); (0%nat, 310); (1%nat, 510)], []).
Proof. vm_compute. reflexivity. Qed.
