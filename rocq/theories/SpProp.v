(* Properties C99-C102: the output port of the SNAPPR model.  Examples are in SpEx.v. *)
From Coq Require Import List ZArith Bool Arith Lia Permutation.
From Verif Require Import PtModel SpModel SpSpec SpProof SpArb SpWrr SpOrder.
Import ListNotations.
Local Open Scope Z_scope.

(* A new arbitrator, and the credits of its lanes *)
Inductive start : forall A : arbitrator, arb_state A -> list Z -> Prop :=
| start_fifo : forall cr, start fifo_arb (fifo_init cr) cr
| start_wrr : forall link lanes, start wrr_arb (wrr_init link lanes) (lane_credits lanes).

Lemma start_inv : forall A a cr tts flit flow es now o, start A a cr ->
  (forall c, In c cr -> 0 <= c) -> (forall z, 0 <= z -> 0 <= tts z) -> 0 <= flit -> sane (length cr) es ->
  port_run A tts flit flow 0 (port_init A a) es = Some (now, o) ->
  exists ok held purse waiting, lawful A (length cr) ok held purse waiting /\
    inv A ok held purse waiting tts flit flow now o (tried es) (fun l => nth l cr 0 + credited l es)
      (waited tts flit flow 0 (port_init A a) es).
Proof.
  intros A a cr tts flit flow es now o S CR T F SN R. destruct S as [cr|link lanes].
  - destruct (fifo_start cr CR) as [H1 [H2 [H3 H4]]].
    exists (fifo_ok (length cr)), fifo_held, fifo_purse, fifo_waiting. split; [apply fifo_lawful|].
    pose proof (init_inv _ _ _ _ _ _ (fifo_lawful (length cr)) tts flit flow _ _ H1 H2 H3 H4) as I.
    apply (run_inv _ _ _ _ _ _ (fifo_lawful (length cr)) tts flit flow T F es _ _ _ _ _ _ _ I SN R).
  - destruct (wrr_start link lanes CR) as [H1 [H2 [H3 H4]]].
    assert (LE : length (lane_credits lanes) = length lanes) by apply map_length. rewrite LE in *.
    exists (wrr_ok (length lanes)), wrr_held, wrr_purse, wrr_waiting. split; [apply wrr_lawful|].
    pose proof (init_inv _ _ _ _ _ _ (wrr_lawful (length lanes)) tts flit flow _ _ H1 H2 H3 H4) as I.
    apply (run_inv _ _ _ _ _ _ (wrr_lawful (length lanes)) tts flit flow T F es _ _ _ _ _ _ _ I SN R).
Qed.

(* ---------- C99 ---------- *)

(* No check fails; what was given to the port is what it sent and what it holds; the
   bytes sent on a lane never exceed the credits given for it. *)
Theorem snappr_port_keeps_packets_and_credits : forall A a cr tts flit flow es now o, start A a cr ->
  (forall c, In c cr -> 0 <= c) -> (forall z, 0 <= z -> 0 <= tts z) -> 0 <= flit -> sane (length cr) es ->
  port_run A tts flit flow 0 (port_init A a) es = Some (now, o) ->
  o_aborted o = false /\
  (exists rest, Permutation (tried es) (sent o ++ rest) /\ o_total o = Z.of_nat (length rest)) /\
  (flow = true -> forall l, bsum (on l (sent o)) <= nth l cr 0 + credited l es).
Proof.
  intros A a cr tts flit flow es now o S CR T F SN R.
  destruct (start_inv _ _ _ _ _ _ _ _ _ S CR T F SN R) as [ok [held [purse [waiting [L [C _ _]]]]]].
  split; [apply (c_abort _ _ _ _ _ _ _ _ _ _ _ _ _ C)|]. split.
  - exists (held (o_arb o)). split; [apply (c_all _ _ _ _ _ _ _ _ _ _ _ _ _ C)|apply (c_total _ _ _ _ _ _ _ _ _ _ _ _ _ C)].
  - intros FL l. pose proof (c_purse _ _ _ _ _ _ _ _ _ _ _ _ _ C l) as P.
    pose proof (l_purse _ _ _ _ _ _ L (o_arb o) l (c_ok _ _ _ _ _ _ _ _ _ _ _ _ _ C)) as P0.
    rewrite P, FL in P0. lia.
Qed.
Print Assumptions snappr_port_keeps_packets_and_credits.

(* ---------- C100 ---------- *)

(* With no arbitration to come, the oldest packet left on each lane exceeds the credits
   of the lane.  An arbitration to come is at the end of the transmission. *)
Theorem snappr_port_never_idles : forall A a cr tts flit flow es now o, start A a cr ->
  (forall c, In c cr -> 0 <= c) -> (forall z, 0 <= z -> 0 <= tts z) -> 0 <= flit -> sane (length cr) es ->
  port_run A tts flit flow 0 (port_init A a) es = Some (now, o) ->
  (o_sched o = None -> forall l, exists rest,
     Permutation (on l (tried es)) (on l (sent o) ++ rest) /\ subseq rest (on l (tried es)) /\
     forall q r, rest = q :: r ->
       nth l cr 0 + credited l es - (if flow then bsum (on l (sent o)) else 0) < s_bytes q) /\
  (forall u, o_sched o = Some u -> now <= u /\
     forall k t p, sends o = k ++ [(t, p)] -> u = t + tts (s_bytes p) + flit).
Proof.
  intros A a cr tts flit flow es now o S CR T F SN R.
  destruct (start_inv _ _ _ _ _ _ _ _ _ S CR T F SN R) as [ok [held [purse [waiting [L [C I J]]]]]].
  split.
  - intros N l. exists (waiting (o_arb o) l).
    destruct (l_empty _ _ _ _ _ _ L (o_arb o) (c_ok _ _ _ _ _ _ _ _ _ _ _ _ _ C) (I N) l) as [E1 E2].
    split; [|split].
    + apply (Permutation_trans (on_perm l _ _ (c_all _ _ _ _ _ _ _ _ _ _ _ _ _ C))). rewrite on_app.
      apply Permutation_app_head. exact E1.
    + apply (c_sub _ _ _ _ _ _ _ _ _ _ _ _ _ C).
    + intros q r Q. pose proof (E2 q r Q) as E3. rewrite (c_purse _ _ _ _ _ _ _ _ _ _ _ _ _ C l) in E3. exact E3.
  - intros u U. destruct (J u U) as [J1 [_ [J2 _]]]. split; [exact J2|]. intros k t p E.
    rewrite J1. symmetry. apply (c_last _ _ _ _ _ _ _ _ _ _ _ _ _ C k t p E).
Qed.
Print Assumptions snappr_port_never_idles.

(* So a port that got credits for every packet sends every packet. *)
Theorem snappr_port_drains : forall A a cr tts flit flow es now o, start A a cr ->
  (forall c, In c cr -> 0 <= c) -> (forall z, 0 <= z -> 0 <= tts z) -> 0 <= flit -> sane (length cr) es ->
  port_run A tts flit flow 0 (port_init A a) es = Some (now, o) ->
  o_sched o = None ->
  (forall p, In p (tried es) -> s_bytes p <= nth (s_lane p) cr 0 + credited (s_lane p) es
     - (if flow then bsum (on (s_lane p) (sent o)) else 0)) ->
  forall l, Permutation (on l (tried es)) (on l (sent o)).
Proof.
  intros A a cr tts flit flow es now o S CR T F SN R N H l.
  destruct (proj1 (snappr_port_never_idles _ _ _ _ _ _ _ _ _ S CR T F SN R) N l) as [rest [P [_ Q]]].
  destruct rest as [|q r]; [rewrite app_nil_r in P; exact P|exfalso].
  assert (I : In q (on l (tried es))).
  { apply (Permutation_in _ (Permutation_sym P)). apply in_or_app. right. left. reflexivity. }
  apply on_in in I as [I1 I2]. specialize (H q I1). specialize (Q q r eq_refl). rewrite I2 in H. lia.
Qed.
Print Assumptions snappr_port_drains.

(* ---------- C101 ---------- *)

Definition prefix {X} (l m : list X) : Prop := exists k, m = l ++ k.

(* Weighted round robin: a lane's packets leave in the order they came. *)
Theorem snappr_wrr_lane_order : forall link lanes tts flit flow es now o,
  (forall c, In c (lane_credits lanes) -> 0 <= c) -> (forall z, 0 <= z -> 0 <= tts z) -> 0 <= flit ->
  sane (length lanes) es ->
  port_run wrr_arb tts flit flow 0 (port_init wrr_arb (wrr_init link lanes)) es = Some (now, o) ->
  forall l, prefix (on l (sent o)) (on l (tried es)).
Proof.
  intros link lanes tts flit flow es now o CR T F SN R l.
  assert (LE : length (lane_credits lanes) = length lanes) by apply map_length.
  assert (SN' : sane (length (lane_credits lanes)) es) by (rewrite LE; exact SN).
  pose proof (snappr_port_keeps_packets_and_credits _ _ _ _ _ _ _ _ _ (start_wrr link lanes) CR T F SN' R) as [NA _].
  exists (wl_pending (wl (o_arb o) l)).
  destruct (wrr_start link lanes CR) as [H1 [H2 [H3 H4]]].
  apply (run_order _ _ _ _ _ (wrr_orderly (length lanes)) tts flit flow es 0 (port_init wrr_arb (wrr_init link lanes)) now o
    H1 SN ltac:(apply Forall_forall; auto) R NA (abort_stays _ _ _ _) []).
  intro m. cbn. unfold wrr_held in H2.
  assert (P : wl_pending (wl (wrr_init link lanes) m) = []).
  { pose proof (H4 m) as W. unfold wrr_waiting, unpaid, inq in W. cbn in W. exact W. }
  exact (eq_sym P).
Qed.
Print Assumptions snappr_wrr_lane_order.

(* First in, first out: the same, when the packets of a lane have one size. *)
Theorem snappr_fifo_lane_order_partial : forall cr size tts flit flow es now o,
  (forall c, In c cr -> 0 <= c) -> (forall z, 0 <= z -> 0 <= tts z) -> 0 <= flit ->
  sane (length cr) es -> (forall p, In p (tried es) -> s_bytes p = size (s_lane p)) ->
  port_run fifo_arb tts flit flow 0 (port_init fifo_arb (fifo_init cr)) es = Some (now, o) ->
  forall l, prefix (on l (sent o)) (on l (tried es)).
Proof.
  intros cr size tts flit flow es now o CR T F SN SZ R l.
  pose proof (snappr_port_keeps_packets_and_credits _ _ _ _ _ _ _ _ _ (start_fifo cr) CR T F SN R) as [NA _].
  exists (fifo_order (o_arb o) l).
  destruct (fifo_start cr CR) as [H1 [H2 [H3 H4]]].
  apply (run_order _ _ _ _ _ (fifo_orderly (length cr) size) tts flit flow es 0 (port_init fifo_arb (fifo_init cr)) now o)
    with (tr := []); auto.
  - split; [exact H1|]. intros m p P. change (In p (fifo_waiting (fifo_init cr) m)) in P. rewrite H4 in P. destruct P.
  - apply Forall_forall. exact SZ.
  - apply abort_stays.
  - intro m. exact (eq_sym (H4 m)).
Qed.
Print Assumptions snappr_fifo_lane_order_partial.

Definition pk (i l : nat) (b : Z) : spkt := {| s_id := i; s_lane := l; s_bytes := b |}.

(* With sizes that differ a small packet overtakes a large one that waits for credits. *)
Theorem snappr_fifo_lane_order_refuted : exists cr es now o,
  (forall c, In c cr -> 0 <= c) /\ sane (length cr) es /\
  port_run fifo_arb (fun b => b) 0 true 0 (port_init fifo_arb (fifo_init cr)) es = Some (now, o) /\
  ~ prefix (on 0 (sent o)) (on 0 (tried es)).
Proof.
  exists [10], [(1, 0%nat, Try (pk 0 0 6)); (2, 0%nat, Try (pk 1 0 6)); (3, 0%nat, Try (pk 2 0 4)); (7, 0%nat, Arb)].
  eexists. eexists. split; [intros c [<-|[]]; lia|]. split; [repeat constructor; cbn; lia|].
  split; [vm_compute; reflexivity|]. intros [k K]. vm_compute in K. discriminate.
Qed.
Print Assumptions snappr_fifo_lane_order_refuted.

(* ---------- C102 ---------- *)

(* The statistics split the time up to the end of the last transmission; transmissions
   do not overlap. *)
Theorem snappr_port_time_accounted : forall A a cr tts flit flow es now o, start A a cr ->
  (forall c, In c cr -> 0 <= c) -> (forall z, 0 <= z -> 0 <= tts z) -> 0 <= flit -> sane (length cr) es ->
  port_run A tts flit flow 0 (port_init A a) es = Some (now, o) ->
  spaced tts flit (sends o) /\ 0 <= o_idle o /\ 0 <= o_stall o /\
  forall k t p, sends o = k ++ [(t, p)] ->
    o_active o + o_idle o + o_stall o + flit * Z.of_nat (length (sends o)) = t + tts (s_bytes p) + flit.
Proof.
  intros A a cr tts flit flow es now o S CR T F SN R.
  destruct (start_inv _ _ _ _ _ _ _ _ _ S CR T F SN R) as [ok [held [purse [waiting [L [C _ _]]]]]].
  split; [apply (c_spaced _ _ _ _ _ _ _ _ _ _ _ _ _ C)|].
  destruct (c_nonneg _ _ _ _ _ _ _ _ _ _ _ _ _ C) as [N1 N2]. split; [exact N1|]. split; [exact N2|].
  intros k t p E. rewrite (c_times _ _ _ _ _ _ _ _ _ _ _ _ _ C).
  symmetry. apply (c_last _ _ _ _ _ _ _ _ _ _ _ _ _ C k t p E).
Qed.
Print Assumptions snappr_port_time_accounted.

(* xmit_stall counts only time in which packets wait at a port that is not transmitting *)
Theorem snappr_stall_time_partial : forall A a cr tts flit flow es now o, start A a cr ->
  (forall c, In c cr -> 0 <= c) -> (forall z, 0 <= z -> 0 <= tts z) -> 0 <= flit -> sane (length cr) es ->
  port_run A tts flit flow 0 (port_init A a) es = Some (now, o) ->
  o_stall o <= waited tts flit flow 0 (port_init A a) es.
Proof.
  intros A a cr tts flit flow es now o S CR T F SN R.
  destruct (start_inv _ _ _ _ _ _ _ _ _ S CR T F SN R) as [ok [held [purse [waiting [L [C _ _]]]]]].
  pose proof (c_waited _ _ _ _ _ _ _ _ _ _ _ _ _ C) as W.
  destruct (c_stall _ _ _ _ _ _ _ _ _ _ _ _ _ C) as [E|[E _]].
  - rewrite E in W. cbn in W. lia.
  - destruct (o_stall_start o =? 0); lia.
Qed.
Print Assumptions snappr_stall_time_partial.

(* but not all of it: a packet that is left without credits when the port sends another
   one waits in time that is counted as idle. *)
Theorem snappr_stall_time_refuted : exists cr es now o,
  (forall c, In c cr -> 0 <= c) /\ sane (length cr) es /\
  port_run fifo_arb (fun b => b) 0 true 0 (port_init fifo_arb (fifo_init cr)) es = Some (now, o) /\
  o_total o = 0 /\ o_stall o = 0 /\ o_idle o = 31 /\
  waited (fun b => b) 0 true 0 (port_init fifo_arb (fifo_init cr)) es = 30.
Proof.
  exists [20], [(1, 0%nat, Try (pk 0 0 10)); (2, 0%nat, Try (pk 1 0 10)); (3, 0%nat, Try (pk 2 0 10));
    (11, 0%nat, Arb); (51, 0%nat, Credit 0 10)].
  eexists. eexists. split; [intros c [<-|[]]; lia|]. split; [repeat constructor; cbn; lia|].
  split; [vm_compute; reflexivity|]. repeat split; reflexivity.
Qed.
Print Assumptions snappr_stall_time_refuted.
