(** Delivery of incoming messages on one node, from the node to a completion queue of a process:
    sstmac/software/process/operating_system.cc (registerLib, unregisterLib, handleLibraryRequest,
    handleRequest), sumi/sim_transport.cc (SumiServer, SimTransport's constructor and destructor,
    incomingMessage, allocateCq) and sumi/sim_transport.h (allocateCqId, deallocateCq).
    Simplified: library names, library objects, callbacks and message contents are numbers; integers
    are unbounded; time is not modelled: an event sent with sendExecutionEventNow may be executed at
    any later moment, in the order of sending (event_scheduler.h:381, at equal times the order of
    events of different links is not fixed by the sending order); debug output, the multithreaded
    build and messages that a process sends to itself (sim_transport.cc:413-426) are not modelled. *)
From Coq Require Import List Arith Bool ZArith.
Import ListNotations.

(** Why a call does not return: an empty std::function is called (std::bad_function_call); an index
    outside of completion_queues_ is written; a rank is registered twice (spkt_abort_printf); a deleted
    library is called; there is no such library or process. *)
Inductive bad := EmptyFunction | OutOfBounds | Twice | Dangling | Missing.
Inductive res (A : Type) := Ok (a : A) | Fail (b : bad).
Arguments Ok {A} a.
Arguments Fail {A} b.
Definition bind {A B} (r : res A) (f : A -> res B) : res B :=
  match r with Ok a => f a | Fail b => Fail b end.

(** *** The operating system's libraries *)

(** libs_, lib_refcounts_, pending_library_request_ and the callbacks sent but not yet executed,
    operating_system.h:388-392; the lists of pending_library_request_ are one list in order of
    arrival. *)
Record os (R : Type) := mkos {
  libs : list (nat * nat); refs : list (nat * Z);
  pend : list (nat * R); delayed : list (nat * R) }.
Arguments mkos {R}. Arguments libs {R}. Arguments refs {R}. Arguments pend {R}. Arguments delayed {R}.

(** std::map with number keys: find, operator[]= and erase. *)
Fixpoint find1 {V} (k : nat) (l : list (nat * V)) : option V :=
  match l with [] => None | (a, v) :: t => if a =? k then Some v else find1 k t end.
Definition del1 {V} (k : nat) (l : list (nat * V)) : list (nat * V) :=
  filter (fun p => negb (fst p =? k)) l.
Definition put1 {V} (k : nat) (v : V) (l : list (nat * V)) : list (nat * V) := (k, v) :: del1 k l.

Section Os.
  Context {R : Type}.

  (** registerLib, operating_system.cc:581-607: the library object [l] is entered under the name [n];
      requests kept for this name become callbacks to it. *)
  Definition os_register (l n : nat) (o : os R) : os R :=
    let c := match find1 l (refs o) with Some c => c | None => 0%Z end in
    mkos (put1 n l (libs o)) (put1 l (c + 1)%Z (refs o))
         (del1 n (pend o))
         (delayed o ++ map (fun p => (l, snd p)) (filter (fun p => fst p =? n) (pend o))).

  (** unregisterLib, operating_system.cc:609-624: whatever stands under the name is erased when the
      count of [l] was 1. *)
  Definition os_unregister (l n : nat) (o : os R) : os R :=
    let c := match find1 l (refs o) with Some c => c | None => 0%Z end in
    if (c =? 1)%Z then mkos (del1 n (libs o)) (del1 l (refs o)) (pend o) (delayed o)
    else mkos (libs o) (put1 l (c - 1)%Z (refs o)) (pend o) (delayed o).

  (** handleLibraryRequest and handleRequest, operating_system.cc:786-821: the library to call now,
      if the name is known; otherwise the request is kept. *)
  Definition os_request (n : nat) (r : R) (o : os R) : os R * option nat :=
    match find1 n (libs o) with
    | Some l => (o, Some l)
    | None => (mkos (libs o) (refs o) (pend o ++ [(n, r)]) (delayed o), None)
    end.

  (** The next callback sent by registerLib is executed. *)
  Definition os_next (o : os R) : option (os R * (nat * R)) :=
    match delayed o with
    | [] => None
    | c :: t => Some (mkos (libs o) (refs o) (pend o) t, c)
    end.
End Os.

(** *** Messages and processes *)

(** A process on the node: application and rank, SoftwareId. *)
Definition key := (nat * nat)%type.
Definition keq (a b : key) : bool := (fst a =? fst b) && (snd a =? snd b).

(** sumi::Message, message.h: target application and rank (aid, targetRank), the two completion queues
    ([None]: no_ack, message.h:73; other negative numbers are not modelled), isNicAck, and contents. *)
Record msg := mkmsg { m_key : key; m_recv : option nat; m_send : option nat; m_ack : bool; m_data : nat }.
(** The queue a message is meant for, sim_transport.cc:516. *)
Definition m_cq (m : msg) : option nat := if m_ack m then m_send m else m_recv m.

(** SimTransport: completion_queues_ ([None]: an empty std::function), free_cq_ids_ and held_ (its lists
    as one list in order of arrival), sim_transport.h:272-298. *)
Record tport := mktp { queues : list (option nat); free : list nat; held : list (nat * msg) }.

(** What became of a message: a queue's callback or null_completion_notify_ was called with it, or the
    process that held it was deleted. *)
Inductive outcome := Handed (h : nat) | Nulled | Abandoned.

(** The callback of queue 0: DefaultProgressQueue::incoming, sim_transport.cc:252-253. *)
Definition default_handler := 0.
(** A SimTransport as constructed, sim_transport.cc:236-253. *)
Definition new_tport : tport := mktp [Some default_handler] [] [].

(** SimTransport::incomingMessage, sim_transport.cc:507-532; the timing and writeSyncValue left out. *)
Definition tp_incoming (m : msg) (t : tport) : res (tport * list (key * outcome * msg)) :=
  match m_cq m with
  | None => Ok (t, [(m_key m, Nulled, m)])
  | Some c =>
      match nth_error (queues t) c with
      | None => Ok (mktp (queues t) (free t) (held t ++ [(c, m)]), [])
      | Some (Some h) => Ok (t, [(m_key m, Handed h, m)])
      | Some None => Fail EmptyFunction
      end
  end.

(** allocateCqId, sim_transport.h:241-251. *)
Definition tp_alloc_id (t : tport) : nat * tport :=
  match free t with
  | [] => (length (queues t), mktp (queues t ++ [None]) (free t) (held t))
  | i :: f => (i, mktp (queues t) f (held t))
  end.
(** deallocateCq, sim_transport.h:253-255. *)
Definition tp_dealloc (i : nat) (t : tport) : tport := mktp (queues t) (free t ++ [i]) (held t).

Fixpoint set_nth {A} (i : nat) (x : A) (l : list A) : list A :=
  match l, i with
  | [], _ => []
  | _ :: t, 0 => x :: t
  | a :: t, S j => a :: set_nth j x t
  end.
(** allocateCq, sim_transport.cc:295-307: the callback [f] is moved into the table first; the held
    messages are then given to [f] itself, which is empty after the move (the standard leaves its state
    open, libstdc++ and libc++ leave it empty). *)
Definition tp_alloc_cq (i h : nat) (t : tport) : res tport :=
  if i <? length (queues t) then
    if existsb (fun p => fst p =? i) (held t) then Fail EmptyFunction
    else Ok (mktp (set_nth i (Some h) (queues t)) (free t) (held t))
  else Fail OutOfBounds.

(** *** The server of a node *)

(** SumiServer, sim_transport.cc:119-197: [gen] is the object; procs_ is one list over application and
    rank (the code erases the map of an application when it is empty); an entry without process is
    what operator[] leaves; pending_. *)
Record server := mksrv { gen : nat; procs : list (key * option tport); waiting : list msg }.

Fixpoint find2 (k : key) (l : list (key * option tport)) : option (option tport) :=
  match l with [] => None | (a, v) :: t => if keq a k then Some v else find2 k t end.
Definition del2 (k : key) (l : list (key * option tport)) : list (key * option tport) :=
  filter (fun p => negb (keq (fst p) k)) l.
Definition put2 (k : key) (v : option tport) (l : list (key * option tport)) := (k, v) :: del2 k l.

Definition log := list (key * outcome * msg).

(** The loop of registerProc over pending_, sim_transport.cc:144-153, for the messages of the process. *)
Fixpoint tp_all (l : list msg) (t : tport) : res (tport * log) :=
  match l with
  | [] => Ok (t, [])
  | m :: l' => bind (tp_incoming m t) (fun '(t', o) =>
      bind (tp_all l' t') (fun '(t'', o') => Ok (t'', o ++ o')))
  end.
Definition for_key (k : key) (m : msg) : bool := keq (m_key m) k.

(** SumiServer::registerProc, sim_transport.cc:130-154. *)
Definition srv_register (k : key) (t : tport) (s : server) : res (server * log) :=
  match find2 k (procs s) with
  | Some (Some _) => Fail Twice
  | _ =>
      bind (tp_all (filter (for_key k) (waiting s)) t) (fun '(t', o) =>
        Ok (mksrv (gen s) (put2 k (Some t') (procs s))
                  (filter (fun m => negb (for_key k m)) (waiting s)), o))
  end.

(** SumiServer::unregisterProc, sim_transport.cc:156-165: the remaining server and procs_.empty(). *)
Definition srv_unregister (k : key) (s : server) : server * bool :=
  let p := del2 k (procs s) in
  (mksrv (gen s) p (waiting s), match p with [] => true | _ => false end).

(** SumiServer::incomingRequest, sim_transport.cc:171-186; procs_[..][..] makes an entry. *)
Definition srv_incoming (m : msg) (s : server) : res (server * log) :=
  match find2 (m_key m) (procs s) with
  | Some (Some t) =>
      bind (tp_incoming m t) (fun '(t', o) =>
        Ok (mksrv (gen s) (put2 (m_key m) (Some t') (procs s)) (waiting s), o))
  | _ => Ok (mksrv (gen s) (put2 (m_key m) None (procs s)) (waiting s ++ [m]), [])
  end.

(** SumiServer::getProcs, sim_transport.cc:188-194: the ranks of an application, [None]: abort. *)
Definition srv_ranks (app : nat) (s : server) : option (list nat) :=
  match filter (fun p => fst (fst p) =? app) (procs s) with
  | [] => None
  | l => Some (map (fun p => snd (fst p)) l)
  end.

(** *** The node *)

(** The operating system, the SumiServer that exists, the number of servers made so far, and the record
    of what became of each message. *)
Record node := mknode { nos : os msg; srv : option server; made : nat; out : log }.
(** server_libname_, sumi/transport.h:294-305: "sumi" for every application. *)
Definition server_name := 0.
Definition node0 : node := mknode (mkos [] [] [] []) None 0 [].

(** The library object [l] is called with [m]. *)
Definition call (l : nat) (m : msg) (n : node) : res node :=
  match srv n with
  | Some s =>
      if gen s =? l then
        bind (srv_incoming m s) (fun '(s', o) => Ok (mknode (nos n) (Some s') (made n) (out n ++ o)))
      else Fail Dangling
  | None => Fail Dangling
  end.

(** What happens on a node: a message arrives (Node::handle, node.cc:248, calls handleRequest); a
    callback sent by registerLib is executed; a process starts or ends; a process reserves a queue
    number, installs a callback or gives a number back. *)
Inductive op :=
| Arrive (m : msg) | RunNext
| Start (k : key) | Stop (k : key)
| AllocId (k : key) | AllocCq (k : key) (i h : nat) | DeallocCq (k : key) (i : nat).

(** The server is found under its name, sim_transport.cc:256, 335. *)
Definition the_server (n : node) : res server :=
  match find1 server_name (libs (nos n)), srv n with
  | Some l, Some s => if gen s =? l then Ok s else Fail Dangling
  | Some _, None => Fail Dangling
  | None, _ => Fail Missing
  end.

(** One process works on its own transport. *)
Definition on_tport (k : key) (f : tport -> res tport) (n : node) : res node :=
  match srv n with
  | Some s =>
      match find2 k (procs s) with
      | Some (Some t) =>
          bind (f t) (fun t' =>
            Ok (mknode (nos n) (Some (mksrv (gen s) (put2 k (Some t') (procs s)) (waiting s)))
                       (made n) (out n)))
      | _ => Fail Missing
      end
  | None => Fail Missing
  end.

Definition step (a : op) (n : node) : res node :=
  match a with
  | Arrive m =>
      let '(o, c) := os_request server_name m (nos n) in
      let n' := mknode o (srv n) (made n) (out n) in
      match c with Some l => call l m n' | None => Ok n' end
  | RunNext =>
      match os_next (nos n) with
      | None => Ok n
      | Some (o, (l, m)) => call l m (mknode o (srv n) (made n) (out n))
      end
  | Start k =>
      (* the constructor, sim_transport.cc:254-284: Library's constructor registers a new server
         (library.cc:52-59) *)
      bind (match find1 server_name (libs (nos n)) with
            | None => Ok (mknode (os_register (made n) server_name (nos n))
                                 (Some (mksrv (made n) [] [])) (S (made n)) (out n))
            | Some _ => Ok n
            end) (fun n1 =>
      bind (the_server n1) (fun s =>
      bind (srv_register k new_tport s) (fun '(s', o) =>
      Ok (mknode (nos n1) (Some s') (made n1) (out n1 ++ o)))))
  | Stop k =>
      (* the destructor, sim_transport.cc:333-337; ~Library unregisters (library.cc:61-64) *)
      bind (the_server n) (fun s =>
      match find2 k (procs s) with
      | Some (Some t) =>
          let '(s', e) := srv_unregister k s in
          let o := out n ++ map (fun p => (k, Abandoned, snd p)) (held t) in
          if e then Ok (mknode (os_unregister (gen s) server_name (nos n)) None (made n) o)
          else Ok (mknode (nos n) (Some s') (made n) o)
      | _ => Fail Missing
      end)
  | AllocId k => on_tport k (fun t => Ok (snd (tp_alloc_id t))) n
  | AllocCq k i h => on_tport k (tp_alloc_cq i h) n
  | DeallocCq k i => on_tport k (fun t => Ok (tp_dealloc i t)) n
  end.

Fixpoint run (l : list op) (n : node) : res node :=
  match l with [] => Ok n | a :: t => bind (step a n) (run t) end.

(** ~OperatingSystem, operating_system.cc:238-252: aborts if a request is still kept. *)
Definition teardown_ok (n : node) : bool := match pend (nos n) with [] => true | _ => false end.
