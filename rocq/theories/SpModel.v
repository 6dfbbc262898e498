(* The output port of the SNAPPR network model and its two arbitrators.
   /repo/sstmac/hardware/snappr/snappr_outport.cc, snappr_outport.h, snappr.h *)
From Coq Require Import List ZArith Bool Arith.
From Verif Require Import PtModel.
Import ListNotations.
Local Open Scope Z_scope.

(* SnapprPacket, snappr.h:63-195: the virtual lane vl_ and numBytes(); s_id stands for
   the rest. *)
Record spkt : Type := { s_id : nat; s_lane : nat; s_bytes : Z }.

(* SnapprPortArbitrator, snappr_outport.h:66-98: insert, addCredits, pop and empty.  The
   first number given to insert and pop is the time in ticks.  The nat given to pop
   settles which of several equal entries a std::priority_queue has on top. *)
Record arbitrator : Type := {
  arb_state : Type;
  arb_insert : Z -> spkt -> arb_state -> arb_state;
  arb_credit : nat -> Z -> arb_state -> arb_state;
  arb_pop : Z -> nat -> arb_state -> option (spkt * arb_state);
  arb_empty : arb_state -> bool
}.

(* ---------- FifoPortArbitrator ---------- *)

(* FifoPortArbitrator::VirtualLane, snappr_outport.cc:354-359.  occupancy is only ever
   written.  credits is a uint32_t; it never exceeds its initial value, so it is an
   integer here. *)
Record flane : Type := { fl_credits : Z; fl_pending : list spkt }.
Record fifo : Type := { f_vls : list flane; f_queue : list spkt }.

Definition no_flane : flane := {| fl_credits := 0; fl_pending := [] |}.
Definition fl (a : fifo) (l : nat) : flane := nth l (f_vls a) no_flane.
Definition set_fl (a : fifo) (l : nat) (v : flane) : fifo :=
  {| f_vls := set_nth (f_vls a) l v; f_queue := f_queue a |}.

(* FifoPortArbitrator::insert, snappr_outport.cc:372-391 *)
Definition fifo_insert (cycle : Z) (p : spkt) (a : fifo) : fifo :=
  let v := fl a (s_lane p) in
  if s_bytes p <=? fl_credits v then
    {| f_vls := set_nth (f_vls a) (s_lane p)
                  {| fl_credits := fl_credits v - s_bytes p; fl_pending := fl_pending v |};
       f_queue := f_queue a ++ [p] |}
  else set_fl a (s_lane p) {| fl_credits := fl_credits v; fl_pending := fl_pending v ++ [p] |}.

(* The loop of FifoPortArbitrator::addCredits, snappr_outport.cc:442-449: what is left
   of the credits and of pending, and what moves to port_queue_. *)
Fixpoint unstall (c : Z) (q : list spkt) : Z * list spkt * list spkt :=
  match q with
  | [] => (c, [], [])
  | p :: r =>
    if s_bytes p <=? c then
      let '(c', q', out) := unstall (c - s_bytes p) r in (c', q', p :: out)
    else (c, q, [])
  end.

(* FifoPortArbitrator::addCredits, snappr_outport.cc:437-450 *)
Definition fifo_credit (l : nat) (n : Z) (a : fifo) : fifo :=
  let v := fl a l in
  let '(c, q, out) := unstall (fl_credits v + n) (fl_pending v) in
  {| f_vls := set_nth (f_vls a) l {| fl_credits := c; fl_pending := q |};
     f_queue := f_queue a ++ out |}.

(* FifoPortArbitrator::pop, snappr_outport.cc:452-457 *)
Definition fifo_pop (cycle : Z) (tie : nat) (a : fifo) : option (spkt * fifo) :=
  match f_queue a with
  | [] => None
  | p :: r => Some (p, {| f_vls := f_vls a; f_queue := r |})
  end.

(* FifoPortArbitrator::empty, snappr_outport.cc:459-461 *)
Definition fifo_empty (a : fifo) : bool := match f_queue a with [] => true | _ => false end.

(* FifoPortArbitrator::setVirtualLanes, snappr_outport.cc:426-431 *)
Definition fifo_init (credits : list Z) : fifo :=
  {| f_vls := map (fun c => {| fl_credits := c; fl_pending := [] |}) credits; f_queue := [] |}.

Definition fifo_arb : arbitrator :=
  {| arb_state := fifo; arb_insert := fifo_insert; arb_credit := fifo_credit;
     arb_pop := fifo_pop; arb_empty := fifo_empty |}.

(* ---------- WRR_PortArbitrator ---------- *)

(* SelectionType, snappr_outport.cc:473-477 *)
Inductive sel : Type := BwMin | BwMax | NoQos.

(* WRR_PortArbitrator::VirtualLane, snappr_outport.cc:471-527.  byte_delay and the
   priority come from the parameters (constructor, 565-659); the uint64_t times are
   integers here, so the sums of a time and a delay do not wrap.  A lane in a queue is
   given by its number. *)
Record wlane : Type := {
  wl_sel : sel; wl_delay : Z; wl_prio : Z; wl_stalled : bool; wl_next : Z; wl_credits : Z;
  wl_pending : list spkt
}.
(* port_queue_ and bw_cap_queue_ (536-552), vls_, link_byte_delay_ *)
Record wrr : Type := { w_vls : list wlane; w_queue : list nat; w_cap : list nat; w_link : Z }.

Definition no_wlane : wlane :=
  {| wl_sel := NoQos; wl_delay := 0; wl_prio := 0; wl_stalled := false; wl_next := 0;
     wl_credits := 0; wl_pending := [] |}.
Definition wl (a : wrr) (l : nat) : wlane := nth l (w_vls a) no_wlane.
Definition set_wl (a : wrr) (l : nat) (v : wlane) : wrr :=
  {| w_vls := set_nth (w_vls a) l v; w_queue := w_queue a; w_cap := w_cap a; w_link := w_link a |}.
Definition to_queue (a : wrr) (l : nat) : wrr :=
  {| w_vls := w_vls a; w_queue := w_queue a ++ [l]; w_cap := w_cap a; w_link := w_link a |}.
Definition to_cap (a : wrr) (l : nat) : wrr :=
  {| w_vls := w_vls a; w_queue := w_queue a; w_cap := w_cap a ++ [l]; w_link := w_link a |}.

Definition set_next (v : wlane) (t : Z) : wlane :=
  {| wl_sel := wl_sel v; wl_delay := wl_delay v; wl_prio := wl_prio v; wl_stalled := wl_stalled v;
     wl_next := t; wl_credits := wl_credits v; wl_pending := wl_pending v |}.
Definition add_wcredits (v : wlane) (n : Z) : wlane :=
  {| wl_sel := wl_sel v; wl_delay := wl_delay v; wl_prio := wl_prio v; wl_stalled := wl_stalled v;
     wl_next := wl_next v; wl_credits := wl_credits v + n; wl_pending := wl_pending v |}.
Definition set_stalled (v : wlane) (b : bool) : wlane :=
  {| wl_sel := wl_sel v; wl_delay := wl_delay v; wl_prio := wl_prio v; wl_stalled := b;
     wl_next := wl_next v; wl_credits := wl_credits v; wl_pending := wl_pending v |}.
Definition set_pending (v : wlane) (q : list spkt) : wlane :=
  {| wl_sel := wl_sel v; wl_delay := wl_delay v; wl_prio := wl_prio v; wl_stalled := wl_stalled v;
     wl_next := wl_next v; wl_credits := wl_credits v; wl_pending := q |}.

Definition max_u64 : Z := 2 ^ 64 - 1.

(* insertNoQoS, insertBandwidthMin, insertBandwidthMax, snappr_outport.cc:697-742.  The
   caller has checked the credits, so their aborts cannot fire. *)
Definition wrr_enter (cycle : Z) (p : spkt) (a : wrr) : wrr :=
  let l := s_lane p in
  let v := add_wcredits (wl a l) (- s_bytes p) in
  match wl_sel v with
  | NoQos => to_queue (set_wl a l (set_next v max_u64)) l
  | BwMin => to_queue (set_wl a l (set_next v (cycle + s_bytes p * wl_delay v))) l
  | BwMax =>
    if cycle <? wl_next v then to_cap (set_wl a l v) l
    else to_queue (set_wl a l (set_next v cycle)) l
  end.

(* insert, snappr_outport.cc:744-774 *)
Definition wrr_insert (cycle : Z) (p : spkt) (a : wrr) : wrr :=
  let l := s_lane p in
  let v := wl a l in
  let a1 :=
    match wl_pending v with
    | [] => if s_bytes p <=? wl_credits v then wrr_enter cycle p a
            else set_wl a l (set_stalled v true)
    | _ => a
    end in
  set_wl a1 l (set_pending (wl a1 l) (wl_pending v ++ [p])).

(* blockedUntilCompare, snappr_outport.cc:529-534: l comes before m in bw_cap_queue_ *)
Definition cap_before (a : wrr) (l m : nat) : bool := wl_next (wl a l) <? wl_next (wl a m).
(* priorityDeadlineCompare, snappr_outport.cc:539-549: l comes before m in port_queue_ *)
Definition queue_before (a : wrr) (l m : nat) : bool :=
  if wl_prio (wl a l) =? wl_prio (wl a m) then wl_next (wl a l) <? wl_next (wl a m)
  else wl_prio (wl a m) <? wl_prio (wl a l).

(* std::priority_queue::top: one of the entries that no entry comes before *)
Definition tops (before : nat -> nat -> bool) (q : list nat) : list nat :=
  filter (fun l => forallb (fun m => negb (before m l)) q) q.
Definition top (before : nat -> nat -> bool) (tie : nat) (q : list nat) : option nat :=
  let t := tops before q in nth_error t (Nat.modulo tie (length t)).

Definition drop (l : nat) (q : list nat) : list nat := remove Nat.eq_dec l q.

(* The loop of pop, snappr_outport.cc:852-856: the lanes whose waiting time is over.
   The order in which they are moved does not matter to a priority queue. *)
Definition release (cycle : Z) (a : wrr) : wrr :=
  {| w_vls := w_vls a;
     w_queue := w_queue a ++ filter (fun l => wl_next (wl a l) <=? cycle) (w_cap a);
     w_cap := filter (fun l => negb (wl_next (wl a l) <=? cycle)) (w_cap a);
     w_link := w_link a |}.

(* The choice of pop, snappr_outport.cc:858-867 *)
Definition choose (tie : nat) (a : wrr) : option (nat * wrr) :=
  match w_queue a with
  | [] =>
    match top (cap_before a) tie (w_cap a) with
    | Some l => Some (l, {| w_vls := w_vls a; w_queue := []; w_cap := drop l (w_cap a); w_link := w_link a |})
    | None => None
    end
  | _ =>
    match top (queue_before a) tie (w_queue a) with
    | Some l => Some (l, {| w_vls := w_vls a; w_queue := drop l (w_queue a); w_cap := w_cap a; w_link := w_link a |})
    | None => None
    end
  end.

(* advanceBandwidthMax, snappr_outport.cc:788-807 *)
Definition advance_max (cycle link : Z) (p : spkt) (v : wlane) : wlane :=
  let deficit := if wl_next v <? cycle then cycle - wl_next v else 0 in
  let normal := s_bytes p * wl_delay v in
  let prev := s_bytes p * link in
  set_next v (if normal <=? deficit then cycle + prev else cycle + prev + normal - deficit).

(* popNextNoQos, popNextBandwidthMin, popNextBandwidthMax,
   snappr_outport.cc:776-786, 809-844 *)
Definition wrr_next (cycle : Z) (l : nat) (p : spkt) (a : wrr) : wrr :=
  let v := wl a l in
  let deadline := cycle + s_bytes p * wl_delay v in
  let paid := add_wcredits v (- s_bytes p) in
  match wl_sel v with
  | NoQos => if s_bytes p <=? wl_credits v then to_queue (set_wl a l (set_next paid cycle)) l
             else set_wl a l (set_stalled v true)
  | BwMin => if s_bytes p <=? wl_credits v then to_queue (set_wl a l (set_next paid deadline)) l
             else set_wl a l (set_next (set_stalled v true) deadline)
  | BwMax => if s_bytes p <=? wl_credits v then to_cap (set_wl a l paid) l
             else set_wl a l (set_stalled v true)
  end.

(* pop, snappr_outport.cc:846-904 *)
Definition wrr_pop (cycle : Z) (tie : nat) (a : wrr) : option (spkt * wrr) :=
  match choose tie (release cycle a) with
  | None => None
  | Some (l, a1) =>
    match wl_pending (wl a1 l) with
    | [] => None
    | p :: r =>
      let v := set_pending (wl a1 l) r in
      let v1 := match wl_sel v with BwMax => advance_max cycle (w_link a) p v | _ => v end in
      let a2 := set_wl a1 l v1 in
      Some (p, match r with [] => a2 | q :: _ => wrr_next cycle l q a2 end)
    end
  end.

(* addCredits and unstallNoQoS, unstallBandwidthMin, unstallBandwidthMax,
   snappr_outport.cc:912-963 *)
Definition wrr_credit (l : nat) (n : Z) (a : wrr) : wrr :=
  let v := add_wcredits (wl a l) n in
  let a1 := set_wl a l v in
  if wl_stalled v then
    match wl_pending v with
    | [] => a1
    | p :: _ =>
      if s_bytes p <=? wl_credits v then
        let a2 := set_wl a1 l (set_stalled (add_wcredits v (- s_bytes p)) false) in
        match wl_sel v with BwMax => to_cap a2 l | _ => to_queue a2 l end
      else a1
    end
  else a1.

(* empty, snappr_outport.cc:965-967 *)
Definition wrr_empty (a : wrr) : bool :=
  match w_queue a, w_cap a with [], [] => true | _, _ => false end.

(* The constructor and setVirtualLanes, snappr_outport.cc:565-659, 671-679: type, byte
   delay, priority and credits of each lane *)
Definition wrr_init (link : Z) (lanes : list (sel * Z * Z * Z)) : wrr :=
  {| w_vls := map (fun x => let '(s, d, pr, c) := x in
       {| wl_sel := s; wl_delay := d; wl_prio := pr; wl_stalled := false; wl_next := 0;
          wl_credits := c; wl_pending := [] |}) lanes;
     w_queue := []; w_cap := []; w_link := link |}.

Definition wrr_arb : arbitrator :=
  {| arb_state := wrr; arb_insert := wrr_insert; arb_credit := wrr_credit;
     arb_pop := wrr_pop; arb_empty := wrr_empty |}.

(* ---------- SnapprOutPort ---------- *)

(* snappr_outport.h:127-237: arbitration_scheduled (with the time of the event),
   next_free, stall_start (0 is empty()), the three statistics, total_packets_.  o_sent
   lists what was given to the link, latest first; o_aborted tells that a sanity check
   fired (135-143, 227-234, 267-276, 288-297). *)
Record port (A : arbitrator) : Type := {
  o_arb : arb_state A;
  o_total : Z;
  o_sched : option Z;
  o_free : Z;
  o_stall_start : Z;
  o_active : Z; o_idle : Z; o_stall : Z;
  o_sent : list (Z * spkt);
  o_aborted : bool
}.
Arguments o_arb {A} _. Arguments o_total {A} _. Arguments o_sched {A} _. Arguments o_free {A} _.
Arguments o_stall_start {A} _. Arguments o_active {A} _. Arguments o_idle {A} _.
Arguments o_stall {A} _. Arguments o_sent {A} _. Arguments o_aborted {A} _.

Section Port.
Variable A : arbitrator.
(* numBytes * byte_delay in ticks, flit_overhead, flow_control_ *)
Variable tts : Z -> Z.
Variable flit : Z.
Variable flow : bool.

Definition abort (o : port A) : port A :=
  {| o_arb := o_arb o; o_total := o_total o; o_sched := o_sched o; o_free := o_free o;
     o_stall_start := o_stall_start o; o_active := o_active o; o_idle := o_idle o;
     o_stall := o_stall o; o_sent := o_sent o; o_aborted := true |}.

(* scheduleArbitration, snappr_outport.cc:224-241 *)
Definition schedule (o : port A) : port A :=
  match o_sched o with
  | Some _ => abort o
  | None =>
    if o_total o =? 0 then abort o else
    {| o_arb := o_arb o; o_total := o_total o; o_sched := Some (o_free o); o_free := o_free o;
       o_stall_start := o_stall_start o; o_active := o_active o; o_idle := o_idle o;
       o_stall := o_stall o; o_sent := o_sent o; o_aborted := o_aborted o |}
  end.

(* send, snappr_outport.cc:135-222, without debug_qos (-1 by default), without the
   notifier and without the credit for the previous port, which is part of the network. *)
Definition send (p : spkt) (now : Z) (o : port A) : port A :=
  if now <? o_free o then abort o else
  let stalled := negb (o_stall_start o =? 0) in
  let d_stall := if stalled then now - o_stall_start o else 0 in
  let d_idle := if stalled then (if o_free o <? o_stall_start o then o_stall_start o - o_free o else 0)
                else if o_free o <? now then now - o_free o else 0 in
  let arb := if flow then o_arb o else arb_credit A (s_lane p) (s_bytes p) (o_arb o) in
  let o1 := {| o_arb := arb; o_total := o_total o; o_sched := o_sched o;
     o_free := now + tts (s_bytes p) + flit;
     o_stall_start := if stalled then 0 else o_stall_start o;
     o_active := o_active o + tts (s_bytes p); o_idle := o_idle o + d_idle; o_stall := o_stall o + d_stall;
     o_sent := (now, p) :: o_sent o; o_aborted := o_aborted o |} in
  if arb_empty A (o_arb o1) then o1 else schedule o1.

(* arbitrate, snappr_outport.cc:285-313; popReady, snappr_outport.h:212-215 *)
Definition arbitrate (now : Z) (tie : nat) (o : port A) : port A :=
  if (o_total o =? 0) || (now <? o_free o) then abort o else
  let o1 := {| o_arb := o_arb o; o_total := o_total o; o_sched := None; o_free := o_free o;
     o_stall_start := o_stall_start o; o_active := o_active o; o_idle := o_idle o;
     o_stall := o_stall o; o_sent := o_sent o; o_aborted := o_aborted o |} in
  if arb_empty A (o_arb o) then
    {| o_arb := o_arb o1; o_total := o_total o1; o_sched := o_sched o1; o_free := o_free o1;
       o_stall_start := if o_stall_start o1 =? 0 then now else o_stall_start o1;
       o_active := o_active o1; o_idle := o_idle o1;
       o_stall := o_stall o1; o_sent := o_sent o1; o_aborted := o_aborted o1 |}
  else
    match arb_pop A now tie (o_arb o1) with
    | None => abort o1
    | Some (p, a) =>
      send p now {| o_arb := a; o_total := o_total o1 - 1; o_sched := o_sched o1; o_free := o_free o1;
         o_stall_start := o_stall_start o1; o_active := o_active o1; o_idle := o_idle o1;
         o_stall := o_stall o1; o_sent := o_sent o1; o_aborted := o_aborted o1 |}
    end.

(* requestArbitration, snappr_outport.cc:264-283 *)
Definition request (now : Z) (tie : nat) (o : port A) : port A :=
  match o_sched o with
  | Some _ => abort o
  | None =>
    if o_total o =? 0 then abort o
    else if now <? o_free o then schedule o else arbitrate now tie o
  end.

(* tryToSendPacket, snappr_outport.cc:328-350, with congestion_ set; queue,
   snappr_outport.h:217-220 *)
Definition try_send (now : Z) (tie : nat) (p : spkt) (o : port A) : port A :=
  let o1 := {| o_arb := arb_insert A now p (o_arb o); o_total := o_total o + 1; o_sched := o_sched o;
     o_free := o_free o; o_stall_start := o_stall_start o; o_active := o_active o; o_idle := o_idle o;
     o_stall := o_stall o; o_sent := o_sent o; o_aborted := o_aborted o |} in
  match o_sched o1 with None => request now tie o1 | Some _ => o1 end.

(* handleCredit, snappr_outport.cc:123-133 *)
Definition take_credit (now : Z) (tie : nat) (l : nat) (n : Z) (o : port A) : port A :=
  let o1 := {| o_arb := arb_credit A l n (o_arb o); o_total := o_total o; o_sched := o_sched o;
     o_free := o_free o; o_stall_start := o_stall_start o; o_active := o_active o; o_idle := o_idle o;
     o_stall := o_stall o; o_sent := o_sent o; o_aborted := o_aborted o |} in
  match o_sched o1 with
  | None => if o_total o1 =? 0 then o1 else request now tie o1
  | Some _ => o1
  end.

(* What happens to a port, with the time: a packet to send, a credit, the event of
   scheduleArbitration. *)
Inductive sev : Type := Try (p : spkt) | Credit (l : nat) (n : Z) | Arb.

Definition port_init (a : arb_state A) : port A :=
  {| o_arb := a; o_total := 0; o_sched := None; o_free := 0; o_stall_start := 0; o_active := 0;
     o_idle := 0; o_stall := 0; o_sent := []; o_aborted := false |}.

(* Events come in the order of their times; the scheduled arbitration comes at its time
   (the event queue, C01 and C02), before or after other events of that time. *)
Definition on_time (t : Z) (o : port A) : bool :=
  match o_sched o with Some u => t <=? u | None => true end.
Definition port_step (t : Z) (tie : nat) (e : sev) (o : port A) : option (port A) :=
  match e with
  | Try p => if on_time t o then Some (try_send t tie p o) else None
  | Credit l n => if on_time t o then Some (take_credit t tie l n o) else None
  | Arb => match o_sched o with
           | Some u => if t =? u then Some (arbitrate t tie o) else None
           | None => None
           end
  end.

Fixpoint port_run (now : Z) (o : port A) (es : list (Z * nat * sev)) : option (Z * port A) :=
  match es with
  | [] => Some (now, o)
  | (t, tie, e) :: r =>
    if t <? now then None
    else match port_step t tie e o with
         | Some o1 => port_run t o1 r
         | None => None
         end
  end.
End Port.
