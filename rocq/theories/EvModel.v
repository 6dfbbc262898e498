(** Model of the discrete-event core: event keys, the pending-event set,
    [EventManager::runEvents], links, and the windowed (conservative) parallel
    run.  Definitions only. *)
From Coq Require Import List NArith Bool Arith.
Import ListNotations.
Local Open Scope N_scope.

(** Key of a pending event.
    Models sstmac/common/sst_event.h:82-129 (time_, linkId_, seqnum_).
    Simplified: time is a natural number of ticks (the epoch field of
    [Timestamp] is always 0, see TimeModel.v), link id and sequence number are
    unbounded here; their 32-bit storage is modelled separately by [trunc32]
    where a property depends on it. *)
Record key := Key { k_time : N; k_link : N; k_seq : N }.

(** sstmac/common/event_manager.h:298-309 (EventCompare): strict order by time,
    then link id, then sequence number. *)
Definition keylt (a b : key) : bool :=
  if negb (k_time a =? k_time b) then k_time a <? k_time b
  else if k_link a =? k_link b then k_seq a <? k_seq b
  else k_link a <? k_link b.

Section Sim.
Context {S P : Type}.

(** An event: its key and what [execute()] does.  [Some p] is a handler event
    carrying payload [p] (HandlerExecutionEvent), [None] is the StopEvent of
    sstmac/common/event_manager.cc:72-90. *)
Record event := Ev { e_key : key; e_body : option P }.

Definition e_time (e : event) : N := k_time (e_key e).
Definition e_link (e : event) : N := k_link (e_key e).

(** std::set::insert with EventCompare (sstmac/common/event_manager.h:310-312,
    event_manager.cc:452): the pending set is the list of its elements in
    comparator order; inserting an element equivalent to a present one leaves
    the set unchanged, i.e. the new event is dropped. *)
Fixpoint qinsert (e : event) (q : list event) : list event :=
  match q with
  | [] => [e]
  | x :: r =>
      if keylt (e_key e) (e_key x) then e :: q
      else if keylt (e_key x) (e_key e) then x :: qinsert e r
      else q
  end.

(** True when [qinsert] would drop [e]: the condition under which
    event_manager.cc:453-457 aborts when sanity checks are compiled in. *)
Definition qclash (e : event) (q : list event) : bool :=
  existsb (fun x => negb (keylt (e_key e) (e_key x)) && negb (keylt (e_key x) (e_key e))) q.

(** A request by a handler to send payload on one of its links with an extra
    delay (EventLink::send).  Delays are unsigned. *)
Record send := Send { s_link : N; s_delay : N; s_pay : P }.

(** The simulated machine: what each component does with an event, and for each
    link its sending component, receiving component and latency.
    [m_handler c s t l p] is component [c] in state [s] handling payload [p] which
    arrives at time [t] on link [l].  Self links (event_scheduler.cc:88-94, 108-115)
    are links whose source and destination coincide. *)
Record machine := Machine {
  m_handler : N -> S -> N -> N -> P -> S * list send;
  m_src : N -> N;
  m_dst : N -> N;
  m_lat : N -> N
}.

(** State of one EventManager (and of the components it runs).
    Models sstmac/common/event_manager.h:217-312: now_, event_queue_,
    min_ipc_time_ ([None] = no_events_left_time), stopped_, the components' state,
    the per-link seqnum_ counters (event_scheduler.h:184, 463), and the buffers of
    events addressed to other managers.
    [w_log] is a ghost history of the executed events, latest first.
    [w_past], [w_lost] record whether a sanity check of event_manager.cc would have
    fired: an event scheduled before the current time (cc:440-443) or dropped by
    the set (cc:453-457). *)
Record wstate := W {
  w_now : N;
  w_queue : list event;
  w_minipc : option N;
  w_stopped : bool;
  w_comp : N -> S;
  w_seq : N -> N;
  w_out : list event;
  w_log : list event;
  w_past : bool;
  w_lost : bool
}.

Definition upd {A} (f : N -> A) (k : N) (v : A) : N -> A :=
  fun x => if x =? k then v else f x.

(** EventManager::schedule, event_manager.cc:439-458. *)
Definition schedule (e : event) (w : wstate) : wstate :=
  W (w_now w) (qinsert e (w_queue w)) (w_minipc w) (w_stopped w) (w_comp w) (w_seq w)
    (w_out w) (w_log w) (w_past w || (e_time e <? w_now w))
    (w_lost w || qclash e (w_queue w)).

Definition omin (a b : option N) : option N :=
  match a, b with
  | None, _ => b
  | _, None => a
  | Some x, Some y => Some (N.min x y)
  end.

Variable M : machine.
(** [own c] is the manager (MPI rank or thread) that runs component [c]
    (EventManager::componentManager, event_manager.h:245-248). *)
Variable own : N -> nat.

Definition remote (l : N) : bool :=
  negb (Nat.eqb (own (m_src M l)) (own (m_dst M l))).

(** One EventLink::send.
    Local link: LocalLink::send, event_scheduler.cc:184-193, and
    sendExecutionEvent, event_scheduler.cc:108-115 (self link).
    Remote link: IpcLink::send, event_scheduler.cc:195-213, and
    MultithreadLink::send, event_scheduler.cc:220-230: the event is buffered for the
    other manager and min_ipc_time_ is lowered.
    Simplified: the 64-bit sum now + delay + latency does not wrap here (TimeModel.v
    treats the wrap), and sequence numbers do not wrap at 2^32. *)
Definition do_send (w : wstate) (s : send) : wstate :=
  let l := s_link s in
  let arrival := w_now w + s_delay s + m_lat M l in
  let e := Ev (Key arrival l (w_seq w l)) (Some (s_pay s)) in
  let w1 := W (w_now w) (w_queue w) (w_minipc w) (w_stopped w) (w_comp w)
              (upd (w_seq w) l (w_seq w l + 1)) (w_out w) (w_log w) (w_past w) (w_lost w) in
  if remote l then
    W (w_now w1) (w_queue w1) (omin (Some arrival) (w_minipc w1)) (w_stopped w1)
      (w_comp w1) (w_seq w1) (w_out w1 ++ [e]) (w_log w1) (w_past w1) (w_lost w1)
  else schedule e w1.

Definition do_sends (w : wstate) (ss : list send) : wstate := fold_left do_send ss w.

(** The pop-and-execute branch of the loop body of EventManager::runEvents,
    event_manager.cc:195-200, for the event [e] at the head with remaining queue [r].
    A StopEvent calls EventManager::stop, event_manager.cc:159-169. *)
Definition exec (w : wstate) (e : event) (r : list event) : wstate :=
  match e_body e with
  | None =>
      W (e_time e) [] None true (w_comp w) (w_seq w) (w_out w) (e :: w_log w)
        (w_past w || (e_time e <? w_now w)) (w_lost w)
  | Some p =>
      let c := m_dst M (e_link e) in
      let '(s', ss) := m_handler M c (w_comp w c) (e_time e) (e_link e) p in
      do_sends
        (W (e_time e) r (w_minipc w) (w_stopped w) (upd (w_comp w) c s') (w_seq w)
           (w_out w) (e :: w_log w) (w_past w || (e_time e <? w_now w)) (w_lost w)) ss
  end.

(** [None] as a horizon is no_events_left_time (event_manager.cc:70).
    Simplified: in the code it is the largest 64-bit tick. *)
Definition before (t : N) (h : option N) : bool :=
  match h with None => true | Some x => t <? x end.

(** One turn of the while loop of EventManager::runEvents, event_manager.cc:184-203;
    [None] when the loop exits. *)
Definition wstep (h : option N) (w : wstate) : option wstate :=
  match w_queue w with
  | [] => None
  | e :: r => if before (e_time e) h then Some (exec w e r) else None
  end.

(** The loop itself with explicit fuel; [None] = fuel exhausted (a handler may
    legitimately schedule zero-delay events forever). *)
Fixpoint loop (fuel : nat) (h : option N) (w : wstate) : option wstate :=
  match fuel with
  | O => None
  | Datatypes.S f => match wstep h w with None => Some w | Some w' => loop f h w' end
  end.

(** EventManager::runEvents, event_manager.cc:177-207, without registerPending (which is
    [deliver] below): forget min_ipc_time_, then loop. *)
Definition run_events (fuel : nat) (h : option N) (w : wstate) : option wstate :=
  loop fuel h (W (w_now w) (w_queue w) None (w_stopped w) (w_comp w) (w_seq w) (w_out w)
                 (w_log w) (w_past w) (w_lost w)).

(** The value runEvents returns (event_manager.cc:195-197, 206). *)
Definition vote (w : wstate) : option N :=
  match w_queue w with
  | [] => w_minipc w
  | e :: _ => omin (w_minipc w) (Some (e_time e))
  end.

(** A manager before anything is scheduled. *)
Definition init_w (comp0 : N -> S) : wstate :=
  W 0 [] None false comp0 (fun _ => 0) [] [] false false.

(** EventManager::scheduleStop, event_manager.cc:418-425, with the constructor defaults of
    sst_event.h:94-98: link id is (uint32_t)-1, sequence number 0. *)
Definition stop_event (t : N) : event := Ev (Key t 4294967295 0) None.
Definition schedule_stop (t : N) (w : wstate) : wstate :=
  W (w_now w) (qinsert (stop_event t) (w_queue w)) (w_minipc w) (w_stopped w) (w_comp w)
    (w_seq w) (w_out w) (w_log w) (w_past w) (w_lost w || qclash (stop_event t) (w_queue w)).

(** ** Several managers *)

(** The events of all outboxes addressed to manager [w], in the order of the sending
    managers. *)
Definition inbox (n : nat) (sys : nat -> wstate) (w : nat) : list event :=
  filter (fun e => Nat.eqb (own (m_dst M (e_link e))) w)
         (flat_map (fun w' => w_out (sys w')) (seq 0 n)).

(** Exchange of events between windows: ClockCycleEventMap::receiveIncomingEvents,
    backends/native/clock_cycle_event_container.cc:116-144 with
    EventManager::scheduleIncoming, event_manager.cc:283-319; for threads,
    EventManager::registerPending, event_manager.cc:321-345.
    Simplified: the transport between ranks (MPI, serialisation) is taken to deliver
    exactly the buffered events (see SerModel.v and BufModel.v), and the four rotating
    slots of registerPending are collapsed because all managers advance in lock step. *)
Definition deliver (n : nat) (sys : nat -> wstate) (w : nat) : wstate :=
  let s := sys w in
  fold_left (fun x e => schedule e x) (inbox n sys w)
    (W (w_now s) (w_queue s) (w_minipc s) (w_stopped s) (w_comp s) (w_seq s) []
       (w_log s) (w_past s) (w_lost s)).

Fixpoint omin_list (l : list (option N)) : option N :=
  match l with [] => None | x :: r => omin x (omin_list r) end.

(** Value of a window step: the new system and lower bound, or out of fuel. *)
Definition window (fuel n : nat) (h : option N) (sys : nat -> wstate)
  : option ((nat -> wstate) * option N) :=
  let res := fun w => run_events fuel h (sys w) in
  if forallb (fun w => match res w with Some _ => true | None => false end) (seq 0 n) then
    let sys1 := fun w => match res w with Some s => s | None => sys w end in
    Some (deliver n sys1, omin_list (map (fun w => vote (sys1 w)) (seq 0 n)))
  else None.

(** ClockCycleEventMap::run, clock_cycle_event_container.cc:147-195 (the loop at 170-192),
    and MultithreadedEventContainer::runWork, multithreaded_event_container.cc:246-287:
    [lb] is lower_bound, [L] the lookahead.  The loop ends when lower_bound is
    no_events_left_time.
    Simplified: no profile loops, lower_bound + lookahead does not wrap, and no stop event
    (after a StopEvent receiveIncomingEvents aborts, clock_cycle_event_container.cc:119-121). *)
Fixpoint par_loop (fuel n : nat) (L : N) (lb : option N) (sys : nat -> wstate)
  : option (nat -> wstate) :=
  match fuel with
  | O => None
  | Datatypes.S f =>
      match lb with
      | None => Some sys
      | Some t =>
          match window fuel n (Some (t + L)) sys with
          | None => None
          | Some (sys', lb') => par_loop f n L lb' sys'
          end
      end
  end.

(** Each manager performs the setup sends of its own components. *)
Definition boot_w (comp0 : N -> S) (boot : list send) (w : nat) : wstate :=
  do_sends (init_w comp0) (filter (fun s => Nat.eqb (own (m_src M (s_link s))) w) boot).

(** The parallel simulation: lower_bound starts as Timestamp() = 0. *)
Definition par_run (fuel n : nat) (L : N) (comp0 : N -> S) (boot : list send)
  : option (nat -> wstate) :=
  par_loop fuel n L (Some 0) (boot_w comp0 boot).

End Sim.

Arguments event : clear implicits.
Arguments send : clear implicits.
Arguments machine : clear implicits.
Arguments wstate : clear implicits.

(** EventManager::run, event_manager.cc:396-410: setup (here: [boot], the sends the
    components do in setup()), then run with no horizon.  One manager owns everything, so
    every link is a LocalLink. *)
Definition serial_run {S P} (M : machine S P) (fuel : nat) (comp0 : N -> S)
    (boot : list (send P)) : option (wstate S P) :=
  run_events M (fun _ => O) fuel None (do_sends M (fun _ => O) (init_w comp0) boot).

(** The same with a termination time (Manager::run, backends/native/manager.cc:296-304
    calls scheduleStop before the run). *)
Definition serial_run_until {S P} (M : machine S P) (fuel : nat) (comp0 : N -> S)
    (boot : list (send P)) (t : N) : option (wstate S P) :=
  run_events M (fun _ => O) fuel None
    (do_sends M (fun _ => O) (schedule_stop t (init_w comp0)) boot).

(** Storage of link ids in 32 bits (sst_event.h:105-107, 119; event_scheduler.h:464). *)
Definition trunc32 (x : N) : N := x mod 4294967296.

(** EventLink::allocateSelfLinkId, event_scheduler.cc:88-94, then the conversion to the
    uint32_t selfLinkId_ (event_scheduler.h:442, 464): the k-th component's self link. *)
Definition self_link_id (k : N) : N := trunc32 (18446744073709551615 - trunc32 k).
