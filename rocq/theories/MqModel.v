(* The MPI matching queue: sequence numbers, reordering, matching, probes.
   Source: /repo/sumi-mpi/mpi_queue/mpi_queue.cc,
           /repo/sumi-mpi/mpi_queue/mpi_queue_recv_request.cc,
           /repo/sumi-mpi/mpi_queue/mpi_queue_probe_request.cc,
           /repo/sumi-mpi/mpi_protocol/eager0.cc, eager1.cc,
           rendezvous_rdma.cc. *)
From Coq Require Import List Arith ZArith Bool.
Import ListNotations.

(* sumi-mpi/mpi_protocol/mpi_protocol.h, the protocol ids chosen in
   mpi_queue.cc:180-187. SIMPLIFIED: DIRECT_PUT (use_put_window_, off by
   default) is left out. *)
Inductive prot := Eager0 | Eager1 | Rendezvous.

(* sumi-mpi/mpi_message.h: the envelope of a point-to-point message.
   [ms_src] is the sender's task id (Message::sender), [ms_seq] the sequence
   number, [ms_rank] the sender's rank in the communicator, [ms_data] stands
   for the payload. Sequence numbers are ints in the source; here nat. *)
Record msg := Msg {
  ms_src : nat; ms_seq : nat; ms_comm : nat; ms_rank : Z; ms_tag : Z;
  ms_prot : prot; ms_data : nat }.

(* mpi_queue_recv_request.h: a posted receive. [rq_id] tells requests apart
   (object identity in the source). *)
Record req := Req { rq_id : nat; rq_comm : nat; rq_source : Z; rq_tag : Z }.

(* sumi-mpi/mpi_types.h:61-63 *)
Definition any_source : Z := (-2)%Z.
Definition any_tag : Z := (-1)%Z.

(* mpi_queue_recv_request.cc:92-119 and mpi_queue_probe_request.cc:69-77,
   which test the same three things. SIMPLIFIED: the abort for a receive
   buffer that is too small is left out. *)
Definition matches (r : req) (m : msg) : bool :=
  Nat.eqb (rq_comm r) (ms_comm m)
  && (Z.eqb (rq_source r) (ms_rank m) || Z.eqb (rq_source r) any_source)
  && (Z.eqb (rq_tag r) (ms_tag m) || Z.eqb (rq_tag r) any_tag).

(* mpi_queue.h: the state of one rank's queue.
   [q_next]   next_inbound_    [q_held]   held_ (sorted by seqnum)
   [q_unexp]  need_recv_match_ [q_posted] need_send_match_
   [q_probes] probelist_
   [q_gets]   Eager1 messages whose header was handled and whose RDMA get is
              still under way (they live in the NIC)
   Recorded for the statements: [q_handled] the order in which headers are
   handled, [q_ready] the order in which messages reach the matching code,
   [q_posts] the order in which receives are posted, [q_log] the matches and
   [q_probed] the probe completions, all oldest first. *)
Record mq := Mq {
  q_next : nat -> nat; q_held : nat -> list msg;
  q_unexp : list msg; q_posted : list req; q_probes : list req;
  q_gets : list msg;
  q_handled : list msg; q_ready : list msg; q_posts : list req;
  q_log : list (req * msg); q_probed : list (req * msg) }.

Definition mq0 : mq :=
  Mq (fun _ => 0) (fun _ => []) [] [] [] [] [] [] [] [] [].

Definition upd {A} (f : nat -> A) (i : nat) (x : A) : nat -> A :=
  fun j => if Nat.eqb j i then x else f j.

(* the erase-first-match scan of both findMatchingRecv functions:
   the first element satisfying [f], and the list without it *)
Fixpoint take_first {A} (f : A -> bool) (l : list A) : option (A * list A) :=
  match l with
  | [] => None
  | x :: t =>
    if f x then Some (x, t)
    else match take_first f t with
         | Some (y, t') => Some (y, x :: t')
         | None => None
         end
  end.

(* findMatchingRecv(MpiMessage * ), mpi_queue.cc:312-328. SIMPLIFIED: the
   removal of cancelled requests is left out: nothing in the source calls
   MpiRequest::cancel. *)
Definition arrival_match (q : mq) (m : msg) : mq :=
  match take_first (fun r => matches r m) (q_posted q) with
  | Some (r, rest) =>
    Mq (q_next q) (q_held q) (q_unexp q) rest (q_probes q) (q_gets q)
       (q_handled q) (q_ready q ++ [m]) (q_posts q) (q_log q ++ [(r, m)])
       (q_probed q)
  | None =>
    Mq (q_next q) (q_held q) (q_unexp q ++ [m]) (q_posted q) (q_probes q)
       (q_gets q) (q_handled q) (q_ready q ++ [m]) (q_posts q) (q_log q)
       (q_probed q)
  end.

(* findMatchingRecv(MpiQueueRecvRequest * ), mpi_queue.cc:202-226, as called
   by recv, mpi_queue.cc:231-249 *)
Definition post_recv (q : mq) (r : req) : mq :=
  match take_first (matches r) (q_unexp q) with
  | Some (m, rest) =>
    Mq (q_next q) (q_held q) rest (q_posted q) (q_probes q) (q_gets q)
       (q_handled q) (q_ready q) (q_posts q ++ [r]) (q_log q ++ [(r, m)])
       (q_probed q)
  | None =>
    Mq (q_next q) (q_held q) (q_unexp q) (q_posted q ++ [r]) (q_probes q)
       (q_gets q) (q_handled q) (q_ready q) (q_posts q ++ [r]) (q_log q)
       (q_probed q)
  end.

(* notifyProbes, mpi_queue.cc:401-415: every waiting probe that matches the
   message is completed with it *)
Definition notify (q : mq) (m : msg) : mq :=
  Mq (q_next q) (q_held q) (q_unexp q) (q_posted q)
     (filter (fun p => negb (matches p m)) (q_probes q)) (q_gets q)
     (q_handled q) (q_ready q) (q_posts q) (q_log q)
     (q_probed q ++ map (fun p => (p, m))
                        (filter (fun p => matches p m) (q_probes q))).

(* probe, mpi_queue.cc:265-285 *)
Definition post_probe (q : mq) (p : req) : mq :=
  match take_first (matches p) (q_unexp q) with
  | Some (m, _) =>
    Mq (q_next q) (q_held q) (q_unexp q) (q_posted q) (q_probes q) (q_gets q)
       (q_handled q) (q_ready q) (q_posts q) (q_log q)
       (q_probed q ++ [(p, m)])
  | None =>
    Mq (q_next q) (q_held q) (q_unexp q) (q_posted q) (q_probes q ++ [p])
       (q_gets q) (q_handled q) (q_ready q) (q_posts q) (q_log q)
       (q_probed q)
  end.

(* handlePt2ptMessage, mpi_queue.cc:417-422, on a stage-0 message:
   Eager0::incoming eager0.cc:104-121 and RendezvousGet::incomingHeader
   rendezvous_rdma.cc:186-197 match the message and notify the probes;
   Eager1::incomingHeader eager1.cc:80-93 only starts the RDMA get.
   SIMPLIFIED: the second notifyProbes call of Eager0::incoming(msg, req)
   (eager0.cc:97) repeats the first one and is merged with it. *)
Definition handle (q : mq) (m : msg) : mq :=
  let q := Mq (q_next q) (q_held q) (q_unexp q) (q_posted q) (q_probes q)
              (q_gets q) (q_handled q ++ [m]) (q_ready q) (q_posts q)
              (q_log q) (q_probed q) in
  match ms_prot m with
  | Eager1 =>
    Mq (q_next q) (q_held q) (q_unexp q) (q_posted q) (q_probes q)
       (q_gets q ++ [m]) (q_handled q) (q_ready q) (q_posts q) (q_log q)
       (q_probed q)
  | _ => notify (arrival_match q m) m
  end.

(* ++next_inbound, mpi_queue.cc:369 and 383 *)
Definition advance (q : mq) (s : nat) : mq :=
  Mq (upd (q_next q) s (S (q_next q s))) (q_held q) (q_unexp q) (q_posted q)
     (q_probes q) (q_gets q) (q_handled q) (q_ready q) (q_posts q) (q_log q)
     (q_probed q).

Definition set_held (q : mq) (s : nat) (l : list msg) : mq :=
  Mq (q_next q) (upd (q_held q) s l) (q_unexp q) (q_posted q)
     (q_probes q) (q_gets q) (q_handled q) (q_ready q) (q_posts q) (q_log q)
     (q_probed q).

(* the loop over the held messages and the erase after it,
   mpi_queue.cc:373-392 *)
Fixpoint drain (q : mq) (s : nat) (l : list msg) : mq :=
  match l with
  | [] => set_held q s []
  | m :: t =>
    if ms_seq m <=? q_next q s then drain (advance (handle q m) s) s t
    else set_held q s l
  end.

(* std::set::insert with the order of sortbyseqnum, mpi_queue.cc:83-86: an
   element with an equal key is dropped *)
Fixpoint hold (m : msg) (l : list msg) : list msg :=
  match l with
  | [] => [m]
  | x :: t =>
    if ms_seq m <? ms_seq x then m :: l
    else if ms_seq m =? ms_seq x then l
    else x :: hold m t
  end.

(* incomingPt2ptMessage on a stage-0 message, mpi_queue.cc:349-399. None is
   the abort of lines 393-395. *)
Definition incoming (q : mq) (m : msg) : option mq :=
  let s := ms_src m in
  if ms_seq m =? q_next q s then
    let q1 := advance (handle q m) s in
    Some (drain q1 s (q_held q1 s))
  else if ms_seq m <? q_next q s then None
  else Some (set_held q s (hold m (q_held q s))).

(* incomingPt2ptMessage on a message with stage > 0, mpi_queue.cc:355-359,
   for the payload of an Eager1 message: Eager1::incomingPayload,
   eager1.cc:95-101. The payload arrives at any time after the get was
   started; [i] picks one of the gets under way. *)
Definition payload (q : mq) (i : nat) : mq :=
  match nth_error (q_gets q) i with
  | Some m =>
    let q := Mq (q_next q) (q_held q) (q_unexp q) (q_posted q) (q_probes q)
                (firstn i (q_gets q) ++ skipn (S i) (q_gets q))
                (q_handled q) (q_ready q) (q_posts q) (q_log q)
                (q_probed q) in
    arrival_match q m
  | None => q
  end.

(* Everything that can happen to one rank's queue. *)
Inductive op :=
| Arrive (m : msg)     (* the network delivers a header / eager message *)
| Payload (i : nat)    (* the network completes an RDMA get *)
| Post (r : req)       (* the application posts a receive *)
| Probe (p : req).     (* the application calls MPI_Probe *)

Definition mq_op (q : mq) (o : op) : option mq :=
  match o with
  | Arrive m => incoming q m
  | Payload i => Some (payload q i)
  | Post r => Some (post_recv q r)
  | Probe p => Some (post_probe q p)
  end.

Fixpoint mq_run (q : mq) (ops : list op) : option mq :=
  match ops with
  | [] => Some q
  | o :: t => match mq_op q o with Some q' => mq_run q' t | None => None end
  end.

(* The sending side. mpi_queue.cc:168-200: the protocol follows from the
   size, the sequence number is next_outbound_[dst_tid]++. A send is
   (destination task, envelope without number). Default thresholds
   max_vshort_msg_size = 512 and max_eager_msg_size = 8192,
   mpi_queue.cc:94-95. *)
Record send := Send {
  sd_dst : nat; sd_comm : nat; sd_rank : Z; sd_tag : Z; sd_bytes : N;
  sd_data : nat }.

Definition pick_prot (vshort eager : N) (bytes : N) : prot :=
  if (bytes <=? vshort)%N then Eager0
  else if (bytes <=? eager)%N then Eager1 else Rendezvous.

Fixpoint send_all (vshort eager : N) (me : nat) (out : nat -> nat)
    (l : list send) : list (nat * msg) :=
  match l with
  | [] => []
  | d :: t =>
    (sd_dst d, Msg me (out (sd_dst d)) (sd_comm d) (sd_rank d) (sd_tag d)
                   (pick_prot vshort eager (sd_bytes d)) (sd_data d))
    :: send_all vshort eager me
         (upd out (sd_dst d) (S (out (sd_dst d)))) t
  end.
