(* Properties C103 and C104: priorities, bandwidth caps and bandwidth minima of the
   weighted round-robin arbitrator. *)
From Coq Require Import List ZArith Bool Arith Lia Permutation.
From Verif Require Import PtModel PtProp SpModel SpSpec SpProof SpArb SpWrr SpOrder SpProp SpSched.
Import ListNotations.
Local Open Scope Z_scope.

(* ---------- the calls a port makes ---------- *)

Lemma run_trace : forall link lanes tts flit es now0 (o0 : port wrr_arb) h0 now o,
  wtrace link lanes h0 (o_arb o0) -> clock h0 <= now0 -> popped h0 = sends o0 ->
  sane (length lanes) es -> o_aborted o = false ->
  port_run wrr_arb tts flit true now0 o0 es = Some (now, o) ->
  exists h, wtrace link lanes h (o_arb o) /\ inserted h = inserted h0 ++ tried es /\ popped h = sends o /\
    forall l, given l h = given l h0 + credited l es.
Proof.
  intros link lanes tts flit. induction es as [|[[t tie] e] es IH]; intros now0 o0 h0 now o W C PO SN NA R.
  - cbn in R. injection R as <- <-. exists h0. cbn. rewrite app_nil_r. split; [exact W|]. split; [reflexivity|].
    split; [exact PO|]. intro. lia.
  - cbn [port_run] in R. destruct (Z.ltb_spec t now0); [discriminate|].
    destruct (port_step wrr_arb tts flit true t tie e o0) as [o1|] eqn:ST; [|discriminate].
    inversion SN as [|? ? SE SN']; subst. cbn in SE.
    assert (NA1 : o_aborted o1 = false).
    { destruct (o_aborted o1) eqn:AB; [|reflexivity]. exfalso. clear -AB NA R.
      revert t o1 AB R. induction es as [|[[t2 tie2] e2] es IH]; intros t o1 AB R; cbn [port_run] in R.
      - injection R as <- <-. congruence.
      - destruct (t2 <? t); [discriminate|].
        destruct (port_step wrr_arb tts flit true t2 tie2 e2 o1) as [o2|] eqn:S2; [|discriminate].
        eapply IH; [|exact R]. eapply abort_stays; eauto. }
    set (h1 := match e with Try p => Inserted t p :: h0 | Credit l n => Credited l n :: h0 | Arb => h0 end).
    set (a1 := match e with Try p => wrr_insert t p (o_arb o0) | Credit l n => wrr_credit l n (o_arb o0) | Arb => o_arb o0 end).
    assert (W1 : wtrace link lanes h1 a1 /\ clock h1 <= t /\ popped h1 = sends o0).
    { unfold h1, a1. destruct e as [p|l n|].
      - destruct SE. split; [constructor; auto; lia|]. cbn. split; [lia|exact PO].
      - destruct SE. split; [constructor; auto|]. cbn. split; [lia|exact PO].
      - split; [exact W|]. split; [lia|exact PO]. }
    destruct W1 as [W1 [C1 P1]].
    assert (X1 : inserted h1 ++ tried es = inserted h0 ++ tried ((t, tie, e) :: es)).
    { unfold h1. destruct e; cbn; auto. rewrite <- app_assoc. reflexivity. }
    assert (X2 : forall l, given l h1 + credited l es = given l h0 + credited l ((t, tie, e) :: es)).
    { intro l. unfold h1. destruct e as [p|k c|]; cbn [given]; unfold credited at 2; cbn [fold_right snd]; fold (credited l es); lia. }
    pose proof (step_arb _ _ _ _ _ _ _ _ _ ST) as SA. cbn zeta in SA.
    assert (SA' : o_arb o1 = a1 /\ o_sent o1 = o_sent o0 \/
      exists p a2, wrr_pop t tie a1 = Some (p, a2) /\ wrr_empty a1 = false /\
        o_sent o1 = (t, p) :: o_sent o0 /\ o_arb o1 = a2).
    { destruct SA as [SA|[[_ SA]|SA]]; [left|congruence|right]; destruct e; exact SA. }
    destruct SA' as [[S1 S2]|[p [a2 [S1 [S2 [S3 S4]]]]]].
    + destruct (IH t o1 h1 now o) as [h [H1 [H2 [H3 H4]]]]; auto.
      * rewrite S1. exact W1.
      * unfold sends. rewrite S2. exact P1.
      * exists h. rewrite <- X1. split; [exact H1|]. split; [exact H2|]. split; [exact H3|].
        intro l. rewrite H4. apply X2.
    + destruct (IH t o1 (Popped t p :: h1) now o) as [h [H1 [H2 [H3 H4]]]]; auto.
      * rewrite S4. apply (wt_pop _ _ _ a1 _ tie); auto.
      * cbn. lia.
      * cbn. unfold sends. rewrite S3. cbn. rewrite P1. reflexivity.
      * exists h. rewrite <- X1. split; [exact H1|]. split; [exact H2|]. split; [exact H3|].
        intro l. rewrite H4. apply X2.
Qed.

(* What the arbitrator of a port sees are calls in the order of time, so what follows
   holds at every port. *)
Theorem snappr_port_calls_in_order : forall link lanes tts flit es now o,
  (forall c, In c (lane_credits lanes) -> 0 <= c) -> (forall z, 0 <= z -> 0 <= tts z) -> 0 <= flit ->
  sane (length lanes) es -> 
  port_run wrr_arb tts flit true 0 (port_init wrr_arb (wrr_init link lanes)) es = Some (now, o) ->
  exists h, wtrace link lanes h (o_arb o) /\ inserted h = tried es /\ popped h = sends o /\
    forall l, given l h = credited l es.
Proof.
  intros link lanes tts flit es now o CR T F SN R.
  assert (LE : length (lane_credits lanes) = length lanes) by apply map_length.
  assert (SN' : sane (length (lane_credits lanes)) es) by (rewrite LE; exact SN).
  pose proof (snappr_port_keeps_packets_and_credits _ _ _ _ _ _ _ _ _ (start_wrr link lanes) CR T F SN' R) as [NA _].
  destruct (run_trace link lanes tts flit es 0 (port_init wrr_arb (wrr_init link lanes)) [] now o) as [h [H1 [H2 [H3 H4]]]]; auto.
  - constructor.
  - cbn. lia.
  - exists h. split; [exact H1|]. split; [exact H2|]. split; [exact H3|]. intro l. rewrite H4. reflexivity.
Qed.
Print Assumptions snappr_port_calls_in_order.

(* ---------- C103 ---------- *)

Definition pops_on (m : nat) (c : call) : bool :=
  match c with Popped _ p => Nat.eqb (s_lane p) m | _ => false end.
(* The latest packet sent on lane m *)
Definition last_sent (h : list call) (m : nat) (t : Z) (p : spkt) : Prop :=
  exists newer older, h = newer ++ Popped t p :: older /\ s_lane p = m /\
    forall c, In c newer -> pops_on m c = false.

Section Qos.
Variable link : Z.
Variable lanes : list (sel * Z * Z * Z).
Hypothesis SB : sensible link lanes.
Notation trace := (wtrace link lanes).

Lemma last_sent_cons : forall c h m t p, last_sent h m t p -> pops_on m c = false -> last_sent (c :: h) m t p.
Proof.
  intros c h m t p [nw [ol [E [S N]]]] C. exists (c :: nw), ol. rewrite E. split; [reflexivity|]. split; [exact S|].
  intros d [<-|D]; auto.
Qed.

Lemma pop_facts : forall h a t tie p a', trace h a -> wrr_empty a = false -> wrr_pop t tie a = Some (p, a') ->
  (s_lane p < length lanes)%nat /\ 0 <= s_bytes p.
Proof.
  intros h a t tie p a' H E P. destruct (trace_ok link lanes SB h a H) as [O _].
  destruct (ord_pop _ _ _ _ _ (wrr_orderly (length lanes)) a t tie p a' O E P) as [_ [A [B _]]]. auto.
Qed.

Lemma cap_bound : forall h a, trace h a -> forall m, lane_type lanes m = BwMax ->
  wl_next (wl a m) <= clock h \/
  exists t q, last_sent h m t q /\ wl_next (wl a m) <= t + s_bytes q * (link + lane_delay lanes m).
Proof.
  induction 1 as [|h a t p H IH T SL B|h a l c H IH SL C|h a t tie p a' H IH T E P]; intros m M.
  - left. cbn. unfold wl, wrr_init. cbn. 
    set (mk := fun x : sel * Z * Z * Z => let '(s, d, pr, c) := x in
       {| wl_sel := s; wl_delay := d; wl_prio := pr; wl_stalled := false; wl_next := 0;
          wl_credits := c; wl_pending := [] |}).
    change no_wlane with (mk (NoQos, 0, 0, 0)). rewrite (map_nth mk).
    destruct (nth m lanes (NoQos, 0, 0, 0)) as [[[? ?] ?] ?]. cbn. lia.
  - pose proof (insert_next link lanes a t p m) as N.
    rewrite (wo_len _ _ (proj1 (trace_ok link lanes SB h a H))) in N.
    specialize (N SL (trace_shape link lanes SB h a H)). cbn zeta in N. cbn [clock].
    assert (X : wl_next (wl (wrr_insert t p a) m) = wl_next (wl a m) \/ wl_next (wl (wrr_insert t p a) m) = Z.max t (wl_next (wl a m))).
    { rewrite N, M. destruct (Nat.eqb m (s_lane p)); [|auto]. destruct (wl_pending (wl a m)); [|auto].
      destruct (s_bytes p <=? wl_credits (wl a m)); auto. }
    destruct (IH m M) as [A|[t1 [q [L A]]]]; [left; lia|].
    destruct (Z.leb_spec (wl_next (wl (wrr_insert t p a) m)) t); [left; assumption|right].
    exists t1, q. split; [apply last_sent_cons; [exact L|reflexivity]|]. lia.
  - rewrite credit_next by (rewrite (wo_len _ _ (proj1 (trace_ok link lanes SB h a H))); exact SL). cbn [clock].
    destruct (IH m M) as [A|[t1 [q [L A]]]]; [left; lia|right].
    exists t1, q. split; [apply last_sent_cons; [exact L|reflexivity]|]. lia.
  - pose proof (pop_next link lanes SB h a t tie p a' m H T E P) as N. cbn zeta in N. cbn [clock].
    destruct (pop_facts _ _ _ _ _ _ H E P) as [_ B].
    pose proof (sb_delay _ _ SB m) as D. pose proof (sb_link _ _ SB) as K.
    destruct (Nat.eqb_spec m (s_lane p)) as [->|NE].
    + rewrite M in N. right. exists t, p. split.
      * exists [], h. split; [reflexivity|]. split; [reflexivity|]. intros c [].
      * rewrite N. nia.
    + rewrite N. destruct (IH m M) as [A|[t1 [q [L A]]]]; [left; lia|right].
      exists t1, q. split; [|lia]. apply last_sent_cons; [exact L|]. cbn. apply Nat.eqb_neq. congruence.
Qed.

(* A lane of higher priority that can send is passed over only if it is capped and its
   last packet was sent less than its time at the capped bandwidth ago. *)
Theorem wrr_priority : forall h a t p m, trace (Popped t p :: h) a ->
  could_send lanes h m -> lane_prio lanes (s_lane p) < lane_prio lanes m ->
  lane_type lanes m = BwMax /\
  exists t1 q, last_sent h m t1 q /\ t < t1 + s_bytes q * (link + lane_delay lanes m).
Proof.
  intros h a' t p m W CS PR. inversion W as [| | |? a ? tie ? ? H T E P]; subst.
  apply (could_send_inq link lanes SB h a m H) in CS.
  destruct (pop_choice link lanes SB h a t tie p a' H E P) as [_ CH].
  destruct (trace_shape link lanes SB h a H) as [_ [SH CAP]].
  assert (QB : queue_before a m (s_lane p) = true).
  { unfold queue_before. destruct (SH m) as [_ [_ ->]]. destruct (SH (s_lane p)) as [_ [_ ->]].
    destruct (Z.eqb_spec (lane_prio lanes m) (lane_prio lanes (s_lane p))); lia. }
  assert (K : In m (w_cap a) /\ t < wl_next (wl a m)).
  { destruct CH as [[_ CH]|[_ [_ CH]]]; [|apply CH; exact CS].
    apply inq_in in CS. apply in_app_or in CS as [CS|CS].
    - rewrite (CH m (or_introl CS)) in QB. discriminate.
    - split; [exact CS|]. destruct (Z.leb_spec (wl_next (wl a m)) t) as [L|L]; [|exact L].
      rewrite (CH m (or_intror (conj CS L))) in QB. discriminate. }
  destruct K as [K1 K2]. split; [apply CAP; exact K1|].
  destruct (cap_bound h a H m (CAP m K1)) as [A|[t1 [q [L A]]]]; [lia|].
  exists t1, q. split; [exact L|lia].
Qed.

Lemma capped_ready : forall h a, trace h a -> forall l, lane_type lanes l = BwMax -> In l (w_queue a) ->
  wl_next (wl a l) <= clock h.
Proof.
  induction 1 as [|h a t p H IH T SL B|h a l0 c H IH SL C|h a t tie p a' H IH T E P]; intros l M I.
  - destruct I.
  - pose proof (wo_len _ _ (proj1 (trace_ok link lanes SB h a H))) as LEN.
    pose proof (trace_shape link lanes SB h a H) as SH. cbn [clock].
    destruct (insert_queue link lanes a t p l SH M ltac:(rewrite LEN; exact SL) I) as [I'|I']; [|lia].
    specialize (IH l M I'). rewrite (insert_next link lanes a t p l ltac:(rewrite LEN; exact SL) SH), M.
    destruct (Nat.eqb l (s_lane p)); [|lia]. destruct (wl_pending (wl a l)); [|lia].
    destruct (s_bytes p <=? wl_credits (wl a l)); lia.
  - pose proof (wo_len _ _ (proj1 (trace_ok link lanes SB h a H))) as LEN. cbn [clock].
    rewrite credit_next by (rewrite LEN; exact SL). apply IH; [exact M|].
    apply (credit_queue link lanes a l0 c l (trace_shape link lanes SB h a H) M I).
  - cbn [clock]. destruct (pop_queue link lanes SB h a t tie p a' l H E P M I) as [NE K].
    pose proof (pop_next link lanes SB h a t tie p a' l H T E P) as N. cbn zeta in N.
    destruct (Nat.eqb_spec l (s_lane p)) as [X|_]; [contradiction|]. rewrite N.
    destruct K as [K|K]; [|exact K]. specialize (IH l M K). lia.
Qed.

(* A capped lane with others to send for *)
Definition company (h : list call) (l : nat) : Prop :=
  forall newer older t p, h = newer ++ Popped t p :: older -> s_lane p = l ->
    exists m, lane_type lanes m <> BwMax /\ could_send lanes older m.

Lemma cap_lower : forall h a, trace h a -> forall l, lane_type lanes l = BwMax -> company h l ->
  bsum (on l (map snd (popped h))) * (link + lane_delay lanes l) <= wl_next (wl a l) /\
  forall newer older t p, h = newer ++ Popped t p :: older -> s_lane p = l ->
    bsum (on l (map snd (popped older))) * (link + lane_delay lanes l) <= t.
Proof.
  induction 1 as [|h a t p H IH T SL B|h a l0 c H IH SL C|h a t tie p a' H IH T E P]; intros l M CO.
  - split; [|intros [|? ?] ? ? ? X; discriminate X]. cbn. unfold wl, wrr_init. cbn.
    set (mk := fun x : sel * Z * Z * Z => let '(s, d, pr, c) := x in
       {| wl_sel := s; wl_delay := d; wl_prio := pr; wl_stalled := false; wl_next := 0;
          wl_credits := c; wl_pending := [] |}).
    change no_wlane with (mk (NoQos, 0, 0, 0)). rewrite (map_nth mk).
    destruct (nth l lanes (NoQos, 0, 0, 0)) as [[[? ?] ?] ?]. cbn. lia.
  - assert (CO' : company h l) by (intros nw ol u q X; apply (CO (Inserted t p :: nw) ol u q); rewrite X; reflexivity).
    destruct (IH l M CO') as [A A'].
    split; [|intros [|d nw] ol u q X; [discriminate X|]; injection X as _ X; apply (A' nw ol u q X)].
    pose proof (wo_len _ _ (proj1 (trace_ok link lanes SB h a H))) as LEN. cbn [popped].
    rewrite (insert_next link lanes a t p l ltac:(rewrite LEN; exact SL) (trace_shape link lanes SB h a H)), M.
    destruct (Nat.eqb l (s_lane p)); [|exact A]. destruct (wl_pending (wl a l)); [|exact A].
    destruct (s_bytes p <=? wl_credits (wl a l)); lia.
  - assert (CO' : company h l) by (intros nw ol u q X; apply (CO (Credited l0 c :: nw) ol u q); rewrite X; reflexivity).
    destruct (IH l M CO') as [A A'].
    split; [|intros [|d nw] ol u q X; [discriminate X|]; injection X as _ X; apply (A' nw ol u q X)].
    pose proof (wo_len _ _ (proj1 (trace_ok link lanes SB h a H))) as LEN. cbn [popped].
    rewrite credit_next by (rewrite LEN; exact SL). exact A.
  - assert (CO' : company h l) by (intros nw ol u q X; apply (CO (Popped t p :: nw) ol u q); rewrite X; reflexivity).
    destruct (IH l M CO') as [A A'].
    pose proof (pop_next link lanes SB h a t tie p a' l H T E P) as N. cbn zeta in N.
    destruct (pop_facts _ _ _ _ _ _ H E P) as [_ B].
    pose proof (sb_delay _ _ SB l) as D. pose proof (sb_link _ _ SB) as K.
    assert (TM : l = s_lane p -> wl_next (wl a l) <= t).
    { intros ->. destruct (CO [] h t p eq_refl eq_refl) as [m [NM CS]].
      apply (could_send_inq link lanes SB h a m H) in CS.
      destruct (pop_choice link lanes SB h a t tie p a' H E P) as [_ CH].
      destruct CH as [[[Q|[_ Q]] _]|[_ [_ CH]]].
      - pose proof (capped_ready h a H _ M Q). lia.
      - exact Q.
      - exfalso. apply NM. apply (trace_shape link lanes SB h a H). apply (CH m CS). }
    split.
    + cbn [popped]. rewrite map_app, on_app, bsum_app. cbn [map snd]. rewrite on_one.
      destruct (Nat.eqb_spec l (s_lane p)) as [X|X].
      * specialize (TM X). rewrite M in N. rewrite N. subst l. rewrite Nat.eqb_refl. cbn [bsum fold_right]. nia.
      * destruct (Nat.eqb_spec (s_lane p) l); [congruence|]. cbn [bsum fold_right]. rewrite N. lia.
    + intros [|d nw] ol u q X S; [|injection X as _ X; apply (A' nw ol u q X S)].
      injection X as -> -> ->. specialize (TM (eq_sym S)). lia.
Qed.

(* The cap: when a capped lane sends its next packet, all it sent before has had its time
   at the capped bandwidth, provided others could send whenever it sent. *)
Theorem wrr_cap_partial : forall h a l, trace h a -> lane_type lanes l = BwMax -> company h l ->
  forall newer older t p, h = newer ++ Popped t p :: older -> s_lane p = l ->
    bsum (on l (map snd (popped older))) * (link + lane_delay lanes l) <= t.
Proof. intros h a l H M CO. apply (cap_lower h a H l M CO). Qed.

(* ---------- C104 ---------- *)

(* Packet p is the oldest of lane m, with credits, since time t0. *)
Inductive turn (m : nat) (t0 : Z) (p : spkt) : list call -> Prop :=
| turn_insert : forall h, s_lane p = m -> queued h m [] -> s_bytes p <= left_over lanes h m ->
    turn m t0 p (Inserted t0 p :: h)
| turn_pop : forall h q r, s_lane q = m -> queued (Popped t0 q :: h) m (p :: r) ->
    s_bytes p <= left_over lanes (Popped t0 q :: h) m -> turn m t0 p (Popped t0 q :: h).

(* Packets sent after time d on lanes of no higher priority *)
Definition late (m : nat) (d : Z) (c : call) : bool :=
  match c with Popped t q => (d <? t) && (lane_prio lanes (s_lane q) <=? lane_prio lanes m) | _ => false end.
(* The other lanes of the priority of m *)
Definition rivals (m : nat) : list nat :=
  filter (fun l => negb (Nat.eqb l m) && (lane_prio lanes l =? lane_prio lanes m)) (seq 0 (length lanes)).

(* No lane of that priority is of the type "none", and those with a minimum bandwidth
   that run empty do not get their next packet while they are short of credits. *)
Record fair (m : nat) (d : Z) (k h : list call) : Prop := {
  f_type : forall l, In l (rivals m) -> lane_type lanes l <> NoQos;
  f_short : forall newer older t q, k = newer ++ Inserted t q :: older -> d < t ->
    In (s_lane q) (rivals m) -> lane_type lanes (s_lane q) = BwMin -> queued (older ++ h) (s_lane q) [] ->
    s_bytes q <= left_over lanes (older ++ h) (s_lane q)
}.

Lemma turn_start : forall h a m t0 p, trace h a -> lane_type lanes m = BwMin -> turn m t0 p h ->
  could_send lanes h m /\ wl_next (wl a m) = t0 + s_bytes p * lane_delay lanes m /\
  (exists r, queued h m (p :: r)) /\ s_bytes p <= left_over lanes h m.
Proof.
  intros h' a' m t0 p W M TU. destruct TU as [h S Q L|h q r S Q L].
  - inversion W as [|? a ? ? H T SL B| |]; subst.
    destruct (trace_ok link lanes SB h a H) as [O [PU QS]].
    pose proof (queued_det _ _ _ _ (QS (s_lane p)) Q) as PE.
    assert (L' : s_bytes p <= left_over lanes (Inserted t0 p :: h) (s_lane p)) by exact L.
    assert (Q' : queued (Inserted t0 p :: h) (s_lane p) [p]).
    { unfold queued in *. cbn [inserted popped]. rewrite on_app, Q, app_nil_r, on_one, Nat.eqb_refl. reflexivity. }
    split; [exists p, []; auto|]. split; [|split; [exists []; exact Q'|exact L']].
    rewrite (insert_next link lanes a t0 p (s_lane p) ltac:(rewrite (wo_len _ _ O); exact SL) (trace_shape link lanes SB h a H)).
    rewrite Nat.eqb_refl, PE, M. rewrite <- PU in L. unfold wrr_purse in L. rewrite PE in L.
    replace (set_aside (inq a (s_lane p)) []) with 0 in L by (unfold set_aside; destruct (inq a (s_lane p)); reflexivity).
    destruct (Z.leb_spec (s_bytes p) (wl_credits (wl a (s_lane p)))); [reflexivity|lia].
  - inversion W as [| | |? a ? tie ? ? H T E P]; subst.
    split; [exists p, r; auto|]. split; [|split; [exists r; exact Q|exact L]].
    pose proof (pop_next link lanes SB h a t0 tie q a' (s_lane q) H T E P) as N. cbn zeta in N.
    rewrite Nat.eqb_refl, M in N. destruct N as [[_ N]|[q2 [r2 [N1 N2]]]].
    + pose proof (queued_det _ _ _ _ Q N). discriminate.
    + pose proof (queued_det _ _ _ _ Q N1) as X. injection X as <- <-. exact N2.
Qed.

Lemma trace_app : forall k h a, trace (k ++ h) a -> exists b, trace h b.
Proof.
  induction k as [|c k IH]; intros h a W; [eauto|]. cbn in W. inversion W; subst; eapply IH; eauto.
Qed.

(* While lane m does not send, its oldest packet can be sent and its deadline stays. *)
Lemma turn_stays : forall h m t0 p, lane_type lanes m = BwMin -> turn m t0 p h ->
  forall k a, trace (k ++ h) a -> (forall c, In c k -> pops_on m c = false) ->
  could_send lanes (k ++ h) m /\ wl_next (wl a m) = t0 + s_bytes p * lane_delay lanes m /\
  (exists r, queued (k ++ h) m (p :: r)) /\ s_bytes p <= left_over lanes (k ++ h) m.
Proof.
  intros h m t0 p M TU. induction k as [|c k IH]; intros a W NP; [apply turn_start; auto|].
  cbn [app] in W |- *.
  assert (NP' : forall c, In c k -> pops_on m c = false) by (intros d D; apply NP; right; exact D).
  inversion W as [|? b t q H T SL B|? b l n H SL C|? b t tie q ? H T E P]; subst;
    destruct (IH b H NP') as [_ [I2 [[r I3] I4]]].
  - assert (Q' : queued (Inserted t q :: k ++ h) m (p :: r ++ on m [q])).
    { unfold queued in *. cbn [inserted popped]. rewrite on_app, I3, <- app_assoc. reflexivity. }
    split; [exists p, (r ++ on m [q]); split; [exact Q'|exact I4]|].
    split; [|split; [exists (r ++ on m [q]); exact Q'|exact I4]].
    destruct (trace_ok link lanes SB _ b H) as [O [PU QS]].
    rewrite (insert_next link lanes b t q m ltac:(rewrite (wo_len _ _ O); exact SL) (trace_shape link lanes SB _ b H)).
    rewrite (queued_det _ _ _ _ (QS m) I3). destruct (Nat.eqb m (s_lane q)); exact I2.
  - assert (L' : s_bytes p <= left_over lanes (Credited l n :: k ++ h) m).
    { unfold left_over in *. cbn [given popped]. destruct (Nat.eqb l m); lia. }
    split; [exists p, r; auto|]. split; [|split; [exists r; exact I3|exact L']].
    rewrite credit_next by (rewrite (wo_len _ _ (proj1 (trace_ok link lanes SB _ b H))); exact SL). exact I2.
  - assert (NE : (s_lane q =? m)%nat = false) by (apply (NP (Popped t q)); left; reflexivity).
    assert (X : on m (map snd (popped (Popped t q :: k ++ h))) = on m (map snd (popped (k ++ h)))).
    { cbn [popped]. rewrite map_app, on_app. cbn [map snd]. rewrite on_one, NE, app_nil_r. reflexivity. }
    assert (Q' : queued (Popped t q :: k ++ h) m (p :: r)) by (unfold queued in *; rewrite X; exact I3).
    assert (L' : s_bytes p <= left_over lanes (Popped t q :: k ++ h) m) by (unfold left_over in *; rewrite X; exact I4).
    split; [exists p, r; auto|]. split; [|split; [exists r; exact Q'|exact L']].
    pose proof (pop_next link lanes SB _ b t tie q a m H T E P) as N. cbn zeta in N.
    rewrite Nat.eqb_sym, NE in N. rewrite N. exact I2.
Qed.

(* Rivals that can still be served before the deadline d of m *)
Definition live (d : Z) (a : wrr) (l : nat) : bool :=
  (wl_next (wl a l) <=? d) &&
  match lane_type lanes l with
  | BwMax => true
  | _ => match wl_pending (wl a l) with [] => false | _ => true end
  end.

Lemma filter_less : forall X (f g : X -> bool) l x, (forall y, In y l -> f y = true -> g y = true) ->
  In x l -> g x = true -> f x = false -> (length (filter f l) < length (filter g l))%nat.
Proof.
  intros X f g l x. induction l as [|y l IH]; intros SUB I G F; [destruct I|]. cbn.
  assert (LE : forall l', (forall y, In y l' -> f y = true -> g y = true) -> (length (filter f l') <= length (filter g l'))%nat).
  { induction l' as [|z l' IH']; intro S'; cbn; [lia|].
    specialize (IH' (fun w W => S' w (or_intror W))). pose proof (S' z (or_introl eq_refl)) as Z.
    destruct (f z); [rewrite (Z eq_refl)|destruct (g z)]; cbn; lia. }
  destruct I as [->|I].
  - rewrite G, F. cbn. specialize (LE l (fun w W => SUB w (or_intror W))). lia.
  - specialize (IH (fun w W => SUB w (or_intror W)) I G F). pose proof (SUB y (or_introl eq_refl)) as Z.
    destruct (f y); [rewrite (Z eq_refl)|destruct (g y)]; cbn; lia.
Qed.
Lemma filter_le : forall X (f g : X -> bool) l, (forall y, In y l -> f y = true -> g y = true) ->
  (length (filter f l) <= length (filter g l))%nat.
Proof.
  intros X f g. induction l as [|z l IH]; intro S; cbn; [lia|].
  specialize (IH (fun w W => S w (or_intror W))). pose proof (S z (or_introl eq_refl)) as Z.
  destruct (f z); [rewrite (Z eq_refl)|destruct (g z)]; cbn; lia.
Qed.

Lemma rival_iff : forall m l, In l (rivals m) <-> (l < length lanes)%nat /\ l <> m /\ lane_prio lanes l = lane_prio lanes m.
Proof.
  intros m l. unfold rivals. rewrite filter_In, in_seq, andb_true_iff, negb_true_iff, Nat.eqb_neq, Z.eqb_eq.
  split; [intros [? [? ?]]|intros [? [? ?]]]; repeat split; auto; lia.
Qed.

Lemma late_bound : forall h m t0 p, lane_type lanes m = BwMin -> turn m t0 p h ->
  forall k a, trace (k ++ h) a -> (forall c, In c k -> pops_on m c = false) ->
  let d := t0 + s_bytes p * lane_delay lanes m in
  fair m d k h ->
  let c := length (filter (late m d) k) in
  c = O \/ d < clock (k ++ h) /\ (c + length (filter (live d a) (rivals m)) <= length (rivals m))%nat.
Proof.
  intros h m t0 p M TU. induction k as [|c k IH]; intros a W NP d FA; cbn zeta; [left; reflexivity|].
  cbn [app] in W |- *.
  assert (NP' : forall c, In c k -> pops_on m c = false) by (intros x D; apply NP; right; exact D).
  assert (FA' : fair m d k h).
  { destruct FA as [F1 F2]. split; [exact F1|]. intros nw ol t q X. apply (F2 (c :: nw) ol t q). rewrite X. reflexivity. }
  inversion W as [|? b t q H T SL B|? b l n H SL C|? b t tie q ? H T E P]; subst;
    pose proof (IH b H NP' FA') as I; cbn zeta in I; fold d in I; cbn [filter late clock].
  - destruct I as [I|[I1 I2]]; [left; exact I|right]. split; [lia|].
    destruct (trace_ok link lanes SB _ b H) as [O [PU QS]].
    assert (LE : (length (filter (live d (wrr_insert t q b)) (rivals m)) <= length (filter (live d b) (rivals m)))%nat).
    { apply filter_le. intros l RI LV. unfold live in *.
      pose proof (insert_next link lanes b t q l ltac:(rewrite (wo_len _ _ O); exact SL) (trace_shape link lanes SB _ b H)) as N.
      cbn zeta in N. rewrite N in LV. clear N.
      destruct (ord_insert _ _ _ _ _ (wrr_orderly (length lanes)) b t q O SL B Logic.I) as [_ PN]. specialize (PN l).
      change (wl_pending (wl (wrr_insert t q b) l) = wl_pending (wl b l) ++ on l [q]) in PN. rewrite PN in LV. clear PN.
      pose proof (f_type _ _ _ _ FA l RI) as NQ. pose proof (sb_delay _ _ SB l) as DL.
      destruct (Nat.eqb_spec l (s_lane q)) as [->|NE].
      - destruct (wl_pending (wl b (s_lane q))) as [|x r] eqn:PE; [|exact LV].
        apply andb_true_iff in LV as [LV LV2]. apply Z.leb_le in LV.
        destruct (Z.leb_spec (s_bytes q) (wl_credits (wl b (s_lane q)))) as [CR|CR].
        + exfalso. destruct (lane_type lanes (s_lane q)); [nia|lia|congruence].
        + destruct (lane_type lanes (s_lane q)) eqn:LT; [|apply andb_true_iff; split; [lia|reflexivity]|congruence].
          exfalso. pose proof (QS (s_lane q)) as Q0. rewrite PE in Q0.
          pose proof (f_short _ _ _ _ FA [] k t q eq_refl ltac:(lia) RI LT Q0) as SH.
          rewrite <- PU in SH. unfold wrr_purse in SH. rewrite PE in SH.
          replace (set_aside (inq b (s_lane q)) []) with 0 in SH by (unfold set_aside; destruct (inq b (s_lane q)); reflexivity).
          lia.
      - replace (on l [q]) with (@nil spkt) in LV
          by (rewrite on_one; destruct (Nat.eqb_spec (s_lane q) l); [congruence|reflexivity]).
        rewrite app_nil_r in LV. exact LV. }
    lia.
  - destruct I as [I|[I1 I2]]; [left; exact I|right]. split; [exact I1|].
    destruct (trace_ok link lanes SB _ b H) as [O _].
    assert (LE : (length (filter (live d (wrr_credit l n b)) (rivals m)) <= length (filter (live d b) (rivals m)))%nat).
    { apply filter_le. intros l' RI LV. unfold live in *.
      rewrite credit_next in LV by (rewrite (wo_len _ _ O); exact SL).
      destruct (ord_credit _ _ _ _ _ (wrr_orderly (length lanes)) b l n O SL C) as [_ PN]. specialize (PN l').
      change (wl_pending (wl (wrr_credit l n b) l') = wl_pending (wl b l')) in PN. rewrite PN in LV. exact LV. }
    lia.
  - destruct (Z.ltb_spec d t) as [DT|DT]; [|left; destruct I as [I|[I1 _]]; [exact I|lia] ].
    cbn [andb].
    destruct (trace_ok link lanes SB _ b H) as [O [PU QS]].
    destruct (turn_stays h m t0 p M TU k b H NP') as [TS1 [TS2 _]]. fold d in TS2.
    apply (could_send_inq link lanes SB _ b m H) in TS1.
    assert (MQ : In m (w_queue b)) by (apply (in_port_queue link lanes SB _ b m H); [congruence|exact TS1]).
    destruct (pop_choice link lanes SB _ b t tie q a H E P) as [_ CH].
    destruct (trace_shape link lanes SB _ b H) as [_ [SH CAP]].
    assert (QB : queue_before b m (s_lane q) = false).
    { destruct CH as [[_ CH]|[_ [_ CH]]]; [apply CH; left; exact MQ|].
      destruct (CH m TS1) as [X _]. apply CAP in X. congruence. }
    unfold queue_before in QB. destruct (SH m) as [_ [_ E1]]. destruct (SH (s_lane q)) as [_ [_ E2]].
    rewrite E1, E2, TS2 in QB.
    assert (NE : s_lane q <> m).
    { pose proof (NP (Popped t q) (or_introl eq_refl)) as X. cbn in X. apply Nat.eqb_neq in X. exact X. }
    assert (OTH : forall l, In l (rivals m) -> live d a l = true -> live d b l = true \/ l = s_lane q).
    { intros l RI LV. destruct (Nat.eq_dec l (s_lane q)) as [->|NL]; [auto|left]. unfold live in *.
      pose proof (pop_next link lanes SB _ b t tie q a l H T E P) as N. cbn zeta in N.
      destruct (Nat.eqb_spec l (s_lane q)); [contradiction|]. rewrite N in LV.
      destruct (ord_pop _ _ _ _ _ (wrr_orderly (length lanes)) b t tie q a O E P) as [_ [_ [_ PN]]]. specialize (PN l).
      change (wl_pending (wl b l) = on l [q] ++ wl_pending (wl a l)) in PN.
      replace (on l [q]) with (@nil spkt) in PN
          by (rewrite on_one; destruct (Nat.eqb_spec (s_lane q) l); [congruence|reflexivity]).
      rewrite PN. exact LV. }
    destruct (Z.leb_spec (lane_prio lanes (s_lane q)) (lane_prio lanes m)) as [PL|PL].
    + right. split; [exact DT|]. destruct (Z.eqb_spec (lane_prio lanes m) (lane_prio lanes (s_lane q))) as [PQ|PQ]; [|lia].
      apply Z.ltb_ge in QB.
      destruct (pop_facts _ _ _ _ _ _ H E P) as [LN BQ].
      assert (RI : In (s_lane q) (rivals m)) by (apply rival_iff; auto).
      pose proof (f_type _ _ _ _ FA _ RI) as NQ.
      destruct (pop_form link lanes SB _ b t tie q a H E P) as [a1 [r [_ [_ [_ [_ [_ [PE _]]]]]]]].
      assert (LB : live d b (s_lane q) = true).
      { unfold live. rewrite PE. apply andb_true_iff. split; [lia|]. destruct (lane_type lanes (s_lane q)); reflexivity. }
      assert (LA : live d a (s_lane q) = false).
      { unfold live. pose proof (pop_next link lanes SB _ b t tie q a (s_lane q) H T E P) as N. cbn zeta in N.
        rewrite Nat.eqb_refl in N. pose proof (sb_delay _ _ SB (s_lane q)) as DL. pose proof (sb_link _ _ SB) as LK.
        destruct (lane_type lanes (s_lane q)); [| |congruence].
        - destruct N as [[_ N]|[q2 [r2 [N1 N2]]]].
          + destruct (trace_ok link lanes SB _ a W) as [_ [_ QA]].
            rewrite (queued_det _ _ _ _ (QA (s_lane q)) N). apply andb_false_r.
          + apply andb_false_iff. left. rewrite N2.
            destruct (trace_ok link lanes SB _ a W) as [OA [_ QA]].
            pose proof (wo_lane _ _ OA (s_lane q)) as [_ [BB _]]. rewrite (queued_det _ _ _ _ (QA (s_lane q)) N1) in BB.
            destruct (BB q2 (or_introl eq_refl)) as [_ [_ B2]]. nia.
        - apply andb_false_iff. left. rewrite N. nia. }
      assert (LE : (length (filter (live d a) (rivals m)) < length (filter (live d b) (rivals m)))%nat).
      { apply (filter_less _ _ _ _ (s_lane q)); auto. intros y Y LV. destruct (OTH y Y LV) as [X| ->]; [exact X|exact LB]. }
      cbn [length]. destruct I as [I|[_ I]]; [|lia].
      assert (FL : (length (filter (live d b) (rivals m)) <= length (rivals m))%nat).
      { clear. induction (rivals m) as [|x l IH]; cbn; [lia|]. destruct (live d b x); cbn; lia. }
      lia.
    + destruct I as [I|[_ I]]; [left; exact I|right]. split; [exact DT|].
      assert (LE : (length (filter (live d a) (rivals m)) <= length (filter (live d b) (rivals m)))%nat).
      { apply filter_le. intros l RI LV. destruct (OTH l RI LV) as [X| ->]; [exact X|]. apply rival_iff in RI. lia. }
      lia.
Qed.

(* The minimum: once the oldest packet of the lane has been able to go for its time at
   the minimum bandwidth, each other lane of the priority sends at most one packet before
   it, and those of lower priority none. *)
Theorem wrr_min_partial : forall h m t0 p k a, lane_type lanes m = BwMin -> turn m t0 p h ->
  trace (k ++ h) a -> (forall c, In c k -> pops_on m c = false) ->
  let d := t0 + s_bytes p * lane_delay lanes m in
  fair m d k h -> (length (filter (late m d) k) <= length (rivals m))%nat.
Proof.
  intros h m t0 p k a M TU W NP d FA. pose proof (late_bound h m t0 p M TU k a W NP FA) as L. cbn zeta in L.
  fold d in L. destruct L as [L|[_ L]]; lia.
Qed.
End Qos.
Print Assumptions wrr_priority.
Print Assumptions wrr_cap_partial.
Print Assumptions wrr_min_partial.

(* ---------- counterexamples and examples ---------- *)

(* Calls given with the choice among equal entries, carried out one after the other *)
Inductive todo : Type := Ins (t : Z) (p : spkt) | Cre (l : nat) (n : Z) | Pop (t : Z).
Fixpoint calls (n : nat) (os : list todo) (h : list call) (a : wrr) : option (list call * wrr) :=
  match os with
  | [] => Some (h, a)
  | Ins t p :: r =>
    if (clock h <=? t) && (Nat.ltb (s_lane p) n) && (0 <=? s_bytes p)
    then calls n r (Inserted t p :: h) (wrr_insert t p a) else None
  | Cre l c :: r => if Nat.ltb l n && (0 <=? c) then calls n r (Credited l c :: h) (wrr_credit l c a) else None
  | Pop t :: r =>
    if (clock h <=? t) && negb (wrr_empty a) then
      match wrr_pop t 0 a with Some (p, a') => calls n r (Popped t p :: h) a' | None => None end
    else None
  end.

Lemma calls_trace : forall link lanes os h a h' a', wtrace link lanes h a ->
  calls (length lanes) os h a = Some (h', a') -> wtrace link lanes h' a'.
Proof.
  intros link lanes. induction os as [|o os IH]; intros h a h' a' W C; cbn [calls] in C.
  - injection C as <- <-. exact W.
  - destruct o as [t p|l c|t].
    + destruct (Z.leb_spec (clock h) t); [|discriminate]. destruct (Nat.ltb_spec (s_lane p) (length lanes)); [|discriminate].
      destruct (Z.leb_spec 0 (s_bytes p)); [|discriminate]. cbn [andb negb] in C. eapply IH; [|exact C]. constructor; auto.
    + destruct (Nat.ltb_spec l (length lanes)); [|discriminate]. destruct (Z.leb_spec 0 c); [|discriminate].
      cbn [andb negb] in C. eapply IH; [|exact C]. constructor; auto.
    + destruct (Z.leb_spec (clock h) t); [|discriminate]. destruct (wrr_empty a) eqn:E; [discriminate|]. cbn [andb negb] in C.
      destruct (wrr_pop t 0 a) as [[p b]|] eqn:P; [|discriminate]. eapply IH; [|exact C].
      apply (wt_pop _ _ _ a _ 0%nat); auto.
Qed.

(* The cap on its own: a capped lane that is alone sends at the bandwidth of the link.
   Its 10 bytes should take 10 * (1 + 9) ticks. *)
Theorem wrr_cap_refuted : exists link lanes h a l, sensible link lanes /\ wtrace link lanes h a /\
  lane_type lanes l = BwMax /\
  ~ (forall newer older t p, h = newer ++ Popped t p :: older -> s_lane p = l ->
       bsum (on l (map snd (popped older))) * (link + lane_delay lanes l) <= t).
Proof.
  exists 1, [(BwMax, 9, 0, 100)].
  set (os := [Ins 0 (pk 0 0 10); Ins 0 (pk 1 0 10); Pop 0; Pop 10]).
  destruct (calls 1 os [] (wrr_init 1 [(BwMax, 9, 0, 100)])) as [[h a]|] eqn:C; [|vm_compute in C; discriminate].
  exists h, a, 0%nat. split; [|split; [|split; [reflexivity|]]].
  - split; [lia|intros c [<-|[]]; cbn; lia|]. intros [|[|l]]; vm_compute; discriminate.
  - eapply calls_trace; [constructor|exact C].
  - vm_compute in C. injection C as <- <-. intro H.
    specialize (H [] _ 10 (pk 1 0 10) eq_refl eq_refl). vm_compute in H. apply H. reflexivity.
Qed.
Print Assumptions wrr_cap_refuted.

(* The minimum against a lane of type "none" that keeps running out of credits: it keeps
   the time of its first packet, so it is served before the other lane for ever. *)
Theorem wrr_min_refuted : exists link lanes h k a m t0 p, sensible link lanes /\ lane_type lanes m = BwMin /\
  turn lanes m t0 p h /\ wtrace link lanes (k ++ h) a /\ (forall c, In c k -> pops_on m c = false) /\
  (length (rivals lanes m) < length (filter (late lanes m (t0 + s_bytes p * lane_delay lanes m)) k))%nat.
Proof.
  set (lanes := [(NoQos, 0, 0, 20); (BwMin, 1, 0, 100)]). exists 1, lanes.
  set (o1 := [Ins 0 (pk 0 0 10); Ins 0 (pk 1 0 10); Ins 0 (pk 2 0 10); Ins 0 (pk 3 0 10); Pop 0; Ins 0 (pk 9 1 10)]).
  set (o2 := [Pop 10; Cre 0 10; Pop 20; Cre 0 10; Pop 30]).
  destruct (calls 2 o1 [] (wrr_init 1 lanes)) as [[h b]|] eqn:C1; [|vm_compute in C1; discriminate].
  assert (W1 : wtrace 1 lanes h b) by (eapply calls_trace; [constructor|exact C1]).
  destruct (calls 2 o2 h b) as [[h' a]|] eqn:C2; [|vm_compute in C1; injection C1 as <- <-; vm_compute in C2; discriminate].
  assert (W2 : wtrace 1 lanes h' a) by (eapply calls_trace; [exact W1|exact C2]).
  vm_compute in C1. injection C1 as <- <-. vm_compute in C2. injection C2 as <- <-.
  match type of W2 with wtrace _ _ (?a1 :: ?a2 :: ?a3 :: ?a4 :: ?a5 :: ?r) ?s =>
    exists r, [a1; a2; a3; a4; a5], s end. exists 1%nat, 0, (pk 9 1 10).
  split; [|split; [reflexivity|split; [|split; [exact W2|split] ] ] ].
  - split; [lia| |]; [intros c [<-|[<-|[]]]; cbn; lia|]. intros [|[|[|l]]]; vm_compute; discriminate.
  - apply turn_insert; [reflexivity|reflexivity|vm_compute; discriminate].
  - cbn. intros c [<-|[<-|[<-|[<-|[<-|[]]]]]]; reflexivity.
  - vm_compute. repeat constructor.
Qed.
Print Assumptions wrr_min_refuted.

(* The same against a lane with a minimum bandwidth of its own, which is given each packet
   when it is empty and short of credits. *)
Theorem wrr_min_short_refuted : exists link lanes h k a m t0 p, sensible link lanes /\
  (forall l, lane_type lanes l = BwMin \/ (length lanes <= l)%nat) /\
  turn lanes m t0 p h /\ wtrace link lanes (k ++ h) a /\ (forall c, In c k -> pops_on m c = false) /\
  (length (rivals lanes m) < length (filter (late lanes m (t0 + s_bytes p * lane_delay lanes m)) k))%nat.
Proof.
  set (lanes := [(BwMin, 1, 0, 10); (BwMin, 2, 0, 100)]). exists 1, lanes.
  set (o1 := [Ins 0 (pk 0 0 10); Pop 0; Ins 0 (pk 9 1 10)]).
  set (o2 := [Ins 30 (pk 1 0 10); Cre 0 10; Pop 30; Ins 40 (pk 2 0 10); Cre 0 10; Pop 40]).
  destruct (calls 2 o1 [] (wrr_init 1 lanes)) as [[h b]|] eqn:C1; [|vm_compute in C1; discriminate].
  assert (W1 : wtrace 1 lanes h b) by (eapply calls_trace; [constructor|exact C1]).
  destruct (calls 2 o2 h b) as [[h' a]|] eqn:C2; [|vm_compute in C1; injection C1 as <- <-; vm_compute in C2; discriminate].
  assert (W2 : wtrace 1 lanes h' a) by (eapply calls_trace; [exact W1|exact C2]).
  vm_compute in C1. injection C1 as <- <-. vm_compute in C2. injection C2 as <- <-.
  match type of W2 with wtrace _ _ (?a1 :: ?a2 :: ?a3 :: ?a4 :: ?a5 :: ?a6 :: ?r) ?s =>
    exists r, [a1; a2; a3; a4; a5; a6], s end. exists 1%nat, 0, (pk 9 1 10).
  split; [|split; [|split; [|split; [exact W2|split] ] ] ].
  - split; [lia| |]; [intros c [<-|[<-|[]]]; cbn; lia|]. intros [|[|[|l]]]; vm_compute; discriminate.
  - intros [|[|l]]; [left; reflexivity|left; reflexivity|right; cbn; lia].
  - apply turn_insert; [reflexivity|reflexivity|vm_compute; discriminate].
  - cbn. intros c [<-|[<-|[<-|[<-|[<-|[<-|[]]]]]]]; reflexivity.
  - vm_compute. repeat constructor.
Qed.
Print Assumptions wrr_min_short_refuted.

(* A capped lane of high priority: its second packet has to wait, so the other lane
   sends first; later it is served at once. *)
Definition q_lanes : list (sel * Z * Z * Z) := [(BwMax, 4, 1, 100); (BwMin, 2, 0, 100)].
Definition q_calls : list todo :=
  [Ins 0 (pk 0 0 10); Ins 0 (pk 1 0 10); Ins 0 (pk 2 1 10); Ins 0 (pk 3 1 10); Pop 0; Pop 10; Pop 60].

Example ex_qos : exists h a, sensible 1 q_lanes /\ wtrace 1 q_lanes h a /\
  popped h = [(0, pk 0 0 10); (10, pk 2 1 10); (60, pk 1 0 10)] /\
  could_send q_lanes (tl (tl h)) 0 /\ company q_lanes h 0 /\ lane_prio q_lanes 1 < lane_prio q_lanes 0.
Proof.
  destruct (calls 2 q_calls [] (wrr_init 1 q_lanes)) as [[h a]|] eqn:C; [|vm_compute in C; discriminate].
  assert (W : wtrace 1 q_lanes h a) by (eapply calls_trace; [constructor|exact C]).
  vm_compute in C. injection C as <- <-. eexists. eexists. split; [|split; [exact W|split; [reflexivity|split; [|split] ] ] ].
  - split; [lia| |]; [intros c [<-|[<-|[]]]; cbn; lia|]. intros [|[|[|l]]]; vm_compute; discriminate.
  - exists (pk 1 0 10), []. split; [reflexivity|vm_compute; discriminate].
  - intros nw ol t p E S. exists 1%nat. split; [discriminate|].
    destruct nw as [|? [|? [|? [|? [|? [|? [|? nw]]]]]]]; cbn in E; try discriminate; injection E; intros; subst; try discriminate.
    + exists (pk 3 1 10), []. split; [reflexivity|vm_compute; discriminate].
    + exists (pk 2 1 10), [pk 3 1 10]. split; [reflexivity|vm_compute; discriminate].
    + destruct nw; discriminate.
  - vm_compute. reflexivity.
Qed.

(* Two lanes with minimum bandwidths; lane 1 waits since time 5, its deadline is 45, and
   lane 0 sends one packet after that. *)
Definition m_lanes : list (sel * Z * Z * Z) := [(BwMin, 3, 0, 200); (BwMin, 4, 0, 100)].
Example ex_min : exists h k a, sensible 1 m_lanes /\ turn m_lanes 1 5 (pk 9 1 10) h /\ wtrace 1 m_lanes (k ++ h) a /\
  (forall c, In c k -> pops_on 1 c = false) /\ fair m_lanes 1 45 k h /\ length (filter (late m_lanes 1 45) k) = 1%nat.
Proof.
  set (o1 := [Ins 0 (pk 0 0 10); Ins 0 (pk 1 0 10); Ins 0 (pk 2 0 10); Pop 0; Ins 5 (pk 9 1 10)]).
  set (o2 := [Pop 50; Ins 60 (pk 3 0 10); Cre 0 10]).
  destruct (calls 2 o1 [] (wrr_init 1 m_lanes)) as [[h b]|] eqn:C1; [|vm_compute in C1; discriminate].
  assert (W1 : wtrace 1 m_lanes h b) by (eapply calls_trace; [constructor|exact C1]).
  destruct (calls 2 o2 h b) as [[h' a]|] eqn:C2; [|vm_compute in C1; injection C1 as <- <-; vm_compute in C2; discriminate].
  assert (W2 : wtrace 1 m_lanes h' a) by (eapply calls_trace; [exact W1|exact C2]).
  vm_compute in C1. injection C1 as <- <-. vm_compute in C2. injection C2 as <- <-.
  match type of W2 with wtrace _ _ (?a1 :: ?a2 :: ?a3 :: ?r) ?s => exists r, [a1; a2; a3], s end.
  split; [|split; [|split; [exact W2|split; [|split] ] ] ].
  - split; [lia| |]; [intros c [<-|[<-|[]]]; cbn; lia|]. intros [|[|[|l]]]; vm_compute; discriminate.
  - apply turn_insert; [reflexivity|reflexivity|vm_compute; discriminate].
  - cbn. intros c [<-|[<-|[<-|[]]]]; reflexivity.
  - split; [cbn; intros l [<-|[]]; discriminate|].
    intros nw ol t q E D R M Q. destruct nw as [|? [|? [|? nw]]]; cbn in E; try discriminate; injection E; intros; subst.
    + vm_compute. discriminate.
    + destruct nw; discriminate.
  - reflexivity.
Qed.
