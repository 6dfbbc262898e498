(* The data of MPI point-to-point messages: the eager and rendezvous protocols, the
   buffers of the messages, and the copies made by the NIC.
   Sources: sumi-mpi/mpi_queue/mpi_queue.cc, mpi_queue_recv_request.cc,
   sumi-mpi/mpi_protocol/{mpi_protocol,eager0,eager1,rendezvous_rdma}.cc,
   sumi/sim_transport.cc, sumi/message.h, sstmac/hardware/network/network_message.{h,cc},
   sstmac/hardware/nic/nic.cc.
   SIMPLIFIED: one process holds all memory (no serialization between processes); buffers
   are not null; any receive may match any message and containers are served in any order,
   which covers what tags, ranks and sequence numbers select (MqModel); time and debug
   output are left out; DIRECT_PUT (use_put_window, off by default) is left out. *)
From Coq Require Import List ZArith Bool Arith.
From Verif Require Import DtModel.
Import ListNotations.
Local Open Scope Z_scope.

(* ---------- memory ---------- *)

(* A void*: null, a buffer of the program, or memory from new char[] *)
Inductive ptr : Type := Null | User (b : nat) | Temp (k : nat).

(* The buffers of the program (their sizes are not known to the library), the blocks from
   new char[] that were not deleted, with their sizes, and the number of the next block *)
Record hp : Type := { hp_user : nat -> mem Z; hp_heap : nat -> option (Z * mem Z); hp_next : nat }.

Definition upd {A} (f : nat -> A) (i : nat) (x : A) : nat -> A := fun j => if Nat.eqb j i then x else f j.

(* Size, if known, and contents behind a pointer; None: a bad pointer *)
Definition block (p : ptr) (h : hp) : option (option Z * mem Z) :=
  match p with
  | Null => None
  | User b => Some (None, hp_user h b)
  | Temp k => match hp_heap h k with Some (n, m) => Some (Some n, m) | None => None end
  end.
Definition store (p : ptr) (m : mem Z) (h : hp) : hp :=
  match p with
  | Null => h
  | User b => {| hp_user := upd (hp_user h) b m; hp_heap := hp_heap h; hp_next := hp_next h |}
  | Temp k => match hp_heap h k with
              | Some (n, _) => {| hp_user := hp_user h; hp_heap := upd (hp_heap h) k (Some (n, m)); hp_next := hp_next h |}
              | None => h
              end
  end.
(* new char[n]; [junk] is what the new memory contains *)
Definition alloc (junk : nat -> mem Z) (n : Z) (h : hp) : ptr * hp :=
  (Temp (hp_next h),
   {| hp_user := hp_user h; hp_heap := upd (hp_heap h) (hp_next h) (Some (n, junk (hp_next h)));
      hp_next := S (hp_next h) |}).
(* delete[]; None: not memory from new char[], or deleted before *)
Definition free (p : ptr) (h : hp) : option hp :=
  match p with
  | Null => Some h
  | User _ => None
  | Temp k => match hp_heap h k with
              | Some _ => Some {| hp_user := hp_user h; hp_heap := upd (hp_heap h) k None; hp_next := hp_next h |}
              | None => None
              end
  end.
Definition within (n : Z) (size : option Z) : bool := match size with None => true | Some z => n <=? z end.
Definition copied (n : Z) (src dst : mem Z) : mem Z := fun x => if (0 <=? x) && (x <? n) then src x else dst x.
(* memcpy; None: a bad pointer, or a block that is too small *)
Definition memcpy (dst src : ptr) (n : Z) (h : hp) : option hp :=
  match block dst h, block src h with
  | Some (sd, d), Some (ss, s) =>
    if within n sd && within n ss then Some (store dst (copied n s d) h) else None
  | _, _ => None
  end.
Definition in_block (mv : list (Z * Z)) (size : option Z) : bool :=
  match size with None => true | Some z => forallb (fun m => (0 <=? fst m) && (fst m <? z)) mv end.
(* packSend and unpack_recv, mpi_type.cc:369-391 (DtModel), with the bounds of the packed
   buffer *)
Definition packs (mv : list (Z * Z)) (packed unpacked : ptr) (h : hp) : option hp :=
  match block packed h, block unpacked h with
  | Some (sp, p), Some (_, u) => if in_block mv sp then Some (store packed (pack_with mv u p) h) else None
  | _, _ => None
  end.
Definition unpacks (mv : list (Z * Z)) (packed unpacked : ptr) (h : hp) : option hp :=
  match block packed h, block unpacked h with
  | Some (sp, p), Some (_, u) => if in_block mv sp then Some (store unpacked (unpack_with mv p u) h) else None
  | _, _ => None
  end.

(* ---------- messages ---------- *)

(* mpi_protocol.h, mpi_queue.cc:179-187 *)
Inductive prot : Type := Eager0 | Eager1 | Rendezvous.
(* NetworkMessage::type_t, network_message.h:73-88: smsg_send, rdma_get_request,
   rdma_get_payload, payload_sent_ack, rdma_get_sent_ack *)
Inductive nty : Type := Smsg | GetReq | GetPay | SmsgAck | GetAck.
(* To the same rank (sim_transport.cc:415-425), another one on the node (nic.cc:186-187), or
   over the network (nic.cc:188-191) *)
Inductive path : Type := Self | Intra | Inter.

(* MpiMessage with its base classes.  g_len: byteLength; g_pay: payload_bytes_; g_ack:
   needs_ack_, which always tells whether there is a completion queue for the ack
   (transport.h:204, message.h:199-202); the completion queue of the receiver is always
   pt2ptCqId here. *)
Record pmsg : Type := {
  g_id : nat; g_prot : prot; g_path : path; g_ty : nty; g_stage : nat;
  g_count : Z; g_tsize : Z; g_len : Z; g_pay : Z; g_ack : bool;
  g_smsg : ptr; g_wire : ptr; g_local : ptr; g_remote : ptr; g_partner : ptr }.

(* payloadSize, message.h:276-278 *)
Definition pay_size (m : pmsg) : Z := g_count m * g_tsize m.

Definition with_bufs (m : pmsg) (smsg wire : ptr) : pmsg :=
  {| g_id := g_id m; g_prot := g_prot m; g_path := g_path m; g_ty := g_ty m; g_stage := g_stage m;
     g_count := g_count m; g_tsize := g_tsize m; g_len := g_len m; g_pay := g_pay m; g_ack := g_ack m;
     g_smsg := smsg; g_wire := wire; g_local := g_local m; g_remote := g_remote m; g_partner := g_partner m |}.
(* nicReverse(rdma_get_payload), network_message.cc:367-379 *)
Definition to_payload (m : pmsg) : pmsg :=
  {| g_id := g_id m; g_prot := g_prot m; g_path := g_path m; g_ty := GetPay; g_stage := g_stage m;
     g_count := g_count m; g_tsize := g_tsize m; g_len := g_pay m; g_pay := g_pay m; g_ack := g_ack m;
     g_smsg := g_smsg m; g_wire := g_wire m; g_local := g_local m; g_remote := g_remote m; g_partner := g_partner m |}.
(* cloneInjectionAck, mpi_message.h:94-98; convertToAck, network_message.cc:212-235 *)
Definition to_ack (m : pmsg) : pmsg :=
  {| g_id := g_id m; g_prot := g_prot m; g_path := g_path m;
     g_ty := match g_ty m with GetPay => GetAck | _ => SmsgAck end; g_stage := g_stage m;
     g_count := g_count m; g_tsize := g_tsize m; g_len := 32; g_pay := g_pay m; g_ack := g_ack m;
     g_smsg := Null; g_wire := Null; g_local := g_local m; g_remote := g_remote m; g_partner := g_partner m |}.

(* Where a message is: in the NICs and the network, in the progress queue of a rank
   (mpi_queue.cc:106-107), or among the unmatched ones (need_recv_match_) *)
Inductive place : Type := Net | Cq | Unexp.
Definition item : Type := place * pmsg.

(* ackSend, nic.cc:243-251; needsAck, network_message.h:254-257 *)
Definition acks (pl : place) (m : pmsg) : list item :=
  if g_ack m then match g_ty m with Smsg | GetPay => [(pl, to_ack m)] | _ => [] end else [].

(* MpiQueueRecvRequest, mpi_queue_recv_request.cc:57-81; q_type is the MPI type *)
Record rreq : Type := { q_id : nat; q_count : nat; q_type : dt; q_recv : ptr; q_final : ptr }.
(* max_vshort_msg_size, max_eager_msg_size (mpi_queue.cc:93-94), software_ack
   (rendezvous_rdma.cc:60) *)
Record pcfg : Type := { c_vshort : Z; c_eager : Z; c_soft : bool; c_junk : nat -> mem Z }.

(* What happens, for the statements: the program writes a byte; sends (flow, buffer, type,
   count, contents); posts a receive (request, buffer, type, count, contents); a send is
   complete; a receive is matched with a flow; a receive is complete, with these contents
   of its buffer. *)
Inductive pobs : Type :=
| OWrite (b : nat) (x v : Z)
| OSend (f b : nat) (d : dt) (n : nat) (src : mem Z)
| ORecv (r b : nat) (d : dt) (n : nat) (dst : mem Z)
| OSendDone (f : nat)
| OMatch (r f : nat)
| ORecvDone (r f : nat) (out : mem Z).

(* s_sends: send_flows_ of the rendezvous protocol; s_recvs: its recv_flows_; s_posted:
   need_send_match_; s_flow, s_req: numbers of the next flow and request *)
Record pst : Type := {
  s_hp : hp; s_items : list item; s_posted : list rreq;
  s_sends : list nat; s_recvs : list (nat * rreq); s_flow : nat; s_req : nat }.

Section Steps.
Variable c : pcfg.

(* putBufferOnWire, network_message.cc:102-109 *)
Definition on_wire (p : ptr) (n : Z) (h : hp) : option (ptr * hp) :=
  match p with
  | Null => Some (Null, h)
  | _ => let (w, h1) := alloc (c_junk c) n h in
         match memcpy w p n h1 with Some h2 => Some (w, h2) | None => None end
  end.

(* SimTransport::send, sim_transport.cc:412-443; injectSend, nic.cc:183-192; putOnWire,
   network_message.cc:81-100; intranodeSend, nic.cc:253-280 *)
Definition inject (m : pmsg) (h : hp) : option (list item * hp) :=
  match g_ty m, g_path m with
  | Smsg, Self => Some ((Cq, m) :: acks Cq m, h)
  | Smsg, Intra => Some ([(Net, m)], h)
  | Smsg, Inter =>
    match on_wire (g_smsg m) (g_len m) h with
    | Some (w, h1) => let m1 := with_bufs m Null w in Some ((Net, m1) :: acks Net m1, h1)
    | None => None
    end
  | GetReq, Inter => Some ([(Net, m)], h)
  | GetReq, _ => Some ([(Net, to_payload m)], h)
  | _, _ => None
  end.

(* NIC::recvMessage, nic.cc:194-241, with takeOffWire, network_message.cc:111-139;
   finishMemcpy, nic.cc:282-288, with intranodeMemmove, network_message.cc:141-180 *)
Definition arrive (m : pmsg) (h : hp) : option (list item * hp) :=
  match g_ty m, g_path m with
  | GetReq, _ =>
    let m1 := to_payload m in
    match on_wire (g_remote m1) (g_pay m1) h with
    | Some (w, h1) => let m2 := with_bufs m1 (g_smsg m1) w in Some ((Net, m2) :: acks Net m2, h1)
    | None => None
    end
  | Smsg, Inter => Some ([(Cq, with_bufs m (g_wire m) Null)], h)
  | Smsg, _ =>
    match on_wire (g_smsg m) (g_len m) h with
    | Some (w, h1) => Some ((Cq, with_bufs m w Null) :: acks Net m, h1)
    | None => None
    end
  | GetPay, Inter =>
    match memcpy (g_local m) (g_wire m) (g_pay m) h with
    | Some h1 => match free (g_wire m) h1 with
                 | Some h2 => Some ([(Cq, with_bufs m (g_smsg m) Null)], h2)
                 | None => None
                 end
    | None => None
    end
  | GetPay, _ =>
    match memcpy (g_local m) (g_remote m) (g_pay m) h with
    | Some h1 => Some ((Cq, m) :: acks Net m, h1)
    | None => None
    end
  | SmsgAck, _ | GetAck, _ => Some ([(Cq, m)], h)
  end.

(* ~NetworkMessage, network_message.cc:57-65 *)
Definition destroy (m : pmsg) (h : hp) : option hp :=
  match free (g_wire m) h with Some h1 => free (g_smsg m) h1 | None => None end.

(* rdmaGetRequestResponse, sim_transport.cc:466-479; setupRdmaGet, network_message.h:217-222 *)
Definition get_request (m : pmsg) (ack : bool) (local : ptr) : pmsg :=
  {| g_id := g_id m; g_prot := g_prot m; g_path := g_path m; g_ty := GetReq; g_stage := S (g_stage m);
     g_count := g_count m; g_tsize := g_tsize m; g_len := g_len m; g_pay := pay_size m; g_ack := ack;
     g_smsg := g_smsg m; g_wire := g_wire m; g_local := local; g_remote := g_partner m; g_partner := g_partner m |}.
(* smsgSendResponse with a null buffer, sim_transport.cc:452-464; setupSmsg,
   network_message.h:202-207 *)
Definition soft_ack (m : pmsg) : pmsg :=
  {| g_id := g_id m; g_prot := g_prot m; g_path := g_path m; g_ty := Smsg; g_stage := S (g_stage m);
     g_count := g_count m; g_tsize := g_tsize m; g_len := 64; g_pay := 0; g_ack := false;
     g_smsg := Null; g_wire := g_wire m; g_local := g_local m; g_remote := g_remote m; g_partner := g_partner m |}.

Definition size_of (d : dt) (n : nat) : Z := Z.of_nat (n * msize (build d)).

(* finalizeRecv, mpi_queue.cc:251-260; complete() is the observation *)
Definition finalize (m : pmsg) (q : rreq) (h : hp) : option hp :=
  if mcontig (build (q_type q)) then Some h
  else
    match unpacks (packn (build (q_type q)) (Z.to_nat (g_count m))) (q_recv q) (q_final q) h with
    | Some h1 => free (q_recv q) h1
    | None => None
    end.
Definition contents (p : ptr) (h : hp) : mem Z := match block p h with Some (_, m) => m | None => fun _ => 0 end.

(* fillSendBuffer, mpi_protocol.cc:58-69 *)
Definition fill (b : nat) (d : dt) (n : nat) (h : hp) : option (ptr * hp) :=
  let (p, h1) := alloc (c_junk c) (size_of d n) h in
  match (if mcontig (build d) then memcpy p (User b) (size_of d n) h1
         else packs (packn (build d) n) p (User b) h1) with
  | Some h2 => Some (p, h2)
  | None => None
  end.

Definition header (f : nat) (pr : prot) (pa : path) (d : dt) (n : nat) (len : Z) (ack : bool) (smsg partner : ptr) : pmsg :=
  {| g_id := f; g_prot := pr; g_path := pa; g_ty := Smsg; g_stage := 0;
     g_count := Z.of_nat n; g_tsize := Z.of_nat (msize (build d)); g_len := len; g_pay := len; g_ack := ack;
     g_smsg := smsg; g_wire := Null; g_local := Null; g_remote := Null; g_partner := partner |}.

(* mpi_queue.cc:179-187 *)
Definition choose (bytes : Z) : prot :=
  if bytes <=? c_vshort c then Eager0 else if bytes <=? c_eager c then Eager1 else Rendezvous.

(* MpiQueue::send, mpi_queue.cc:165-200, with Eager0::start (eager0.cc:64-82),
   Eager1::start (eager1.cc:64-79) and RendezvousGet::start (rendezvous_rdma.cc:96-130) *)
Definition send (b : nat) (d : dt) (n : nat) (pa : path) (s : pst) : option (list pobs * pst) :=
  let f := s_flow s in
  let call := OSend f b d n (hp_user (s_hp s) b) in
  let build_msg :=
    match choose (size_of d n) with
    | Eager0 => match fill b d n (s_hp s) with
                | Some (p, h) => Some (header f Eager0 pa d n (size_of d n) true p Null, h)
                | None => None
                end
    | Eager1 => match fill b d n (s_hp s) with
                | Some (p, h) => Some (header f Eager1 pa d n 64 false Null p, h)
                | None => None
                end
    | Rendezvous =>
      if mcontig (build d) then Some (header f Rendezvous pa d n 64 false Null (User b), s_hp s)
      else match fill b d n (s_hp s) with
           | Some (p, h) => Some (header f Rendezvous pa d n 64 false Null p, h)
           | None => None
           end
    end in
  match build_msg with
  | None => None
  | Some (m, h) =>
    match inject m h with
    | None => None
    | Some (its, h1) =>
      let rdv := match g_prot m with Rendezvous => true | _ => false end in
      Some (if rdv then [call] else [OSendDone f; call],
            {| s_hp := h1; s_items := its ++ s_items s; s_posted := s_posted s;
               s_sends := if rdv then f :: s_sends s else s_sends s;
               s_recvs := s_recvs s; s_flow := S f; s_req := s_req s |})
    end
  end.

(* MpiQueue::recv, mpi_queue.cc:231-249, up to the matching; mpi_queue_recv_request.cc:76-80 *)
Definition post (b : nat) (d : dt) (n : nat) (s : pst) : list pobs * pst :=
  let (p, h) := if mcontig (build d) then (User b, s_hp s) else alloc (c_junk c) (size_of d n) (s_hp s) in
  ([ORecv (s_req s) b d n (hp_user (s_hp s) b)],
   {| s_hp := h; s_items := s_items s;
      s_posted := s_posted s ++ [{| q_id := s_req s; q_count := n; q_type := d; q_recv := p; q_final := User b |}];
      s_sends := s_sends s; s_recvs := s_recvs s; s_flow := s_flow s; s_req := S (s_req s) |}).

Inductive outcome : Type := Next (o : list pobs) (s : pst) | Abort | Fault.

Definition set_items (s : pst) (h : hp) (its : list item) : pst :=
  {| s_hp := h; s_items := its; s_posted := s_posted s; s_sends := s_sends s; s_recvs := s_recvs s;
     s_flow := s_flow s; s_req := s_req s |}.

Definition find_recv (f : nat) (l : list (nat * rreq)) : option rreq :=
  match find (fun e => Nat.eqb (fst e) f) l with Some e => Some (snd e) | None => None end.
Definition drop_recv (f : nat) (l : list (nat * rreq)) : list (nat * rreq) :=
  filter (fun e => negb (Nat.eqb (fst e) f)) l.

(* RendezvousGet::incomingAck, rendezvous_rdma.cc:132-158; send_flows_ has original = 0
   (mpi_protocol.h:228-229), so the temporary is not deleted *)
Definition rdv_ack (m : pmsg) (rest : list item) (s : pst) : outcome :=
  if existsb (Nat.eqb (g_id m)) (s_sends s) then
    match destroy m (s_hp s) with
    | None => Fault
    | Some h =>
      Next [OSendDone (g_id m)]
        {| s_hp := h; s_items := rest; s_posted := s_posted s;
           s_sends := filter (fun f => negb (Nat.eqb f (g_id m))) (s_sends s);
           s_recvs := s_recvs s; s_flow := s_flow s; s_req := s_req s |}
    end
  else Abort.

(* handlePt2ptMessage, mpi_queue.cc:417-422: Eager0::incoming (eager0.cc:103-121),
   Eager1::incoming (eager1.cc:81-150), RendezvousGet::incoming (rendezvous_rdma.cc:160-266) *)
Definition handle (m : pmsg) (rest : list item) (s : pst) : outcome :=
  match g_prot m, g_ty m with
  | Eager0, SmsgAck =>
    match free (g_smsg m) (s_hp s) with
    | Some h => match destroy m h with Some h1 => Next [] (set_items s h1 rest) | None => Fault end
    | None => Fault
    end
  | Eager0, _ => Next [] (set_items s (s_hp s) ((Unexp, m) :: rest))
  | Eager1, Smsg =>
    let (p, h) := alloc (c_junk c) (pay_size m) (s_hp s) in
    match inject (get_request m true p) h with
    | Some (its, h1) => Next [] (set_items s h1 (its ++ rest))
    | None => Fault
    end
  | Eager1, GetAck =>
    match free (g_remote m) (s_hp s) with
    | Some h => match destroy m h with Some h1 => Next [] (set_items s h1 rest) | None => Fault end
    | None => Fault
    end
  | Eager1, GetPay => Next [] (set_items s (s_hp s) ((Unexp, m) :: rest))
  | Eager1, _ => Abort
  | Rendezvous, Smsg =>
    match g_stage m with
    | O => Next [] (set_items s (s_hp s) ((Unexp, m) :: rest))
    | S _ => rdv_ack m rest s
    end
  | Rendezvous, GetAck => rdv_ack m rest s
  | Rendezvous, GetPay =>
    match find_recv (g_id m) (s_recvs s) with
    | None => Abort
    | Some q =>
      match finalize m q (s_hp s) with
      | None => Fault
      | Some h =>
        let rs := drop_recv (g_id m) (s_recvs s) in
        let done := ORecvDone (q_id q) (g_id m) (contents (q_final q) h) in
        if c_soft c then
          match inject (soft_ack m) h with
          | Some (its, h1) =>
            Next [done] {| s_hp := h1; s_items := its ++ rest; s_posted := s_posted s; s_sends := s_sends s;
                           s_recvs := rs; s_flow := s_flow s; s_req := s_req s |}
          | None => Fault
          end
        else
          match destroy m h with
          | Some h1 =>
            Next [done] {| s_hp := h1; s_items := rest; s_posted := s_posted s; s_sends := s_sends s;
                           s_recvs := rs; s_flow := s_flow s; s_req := s_req s |}
          | None => Fault
          end
      end
    end
  | Rendezvous, _ => Abort
  end.

(* A message and a posted receive that match: the size check, mpi_queue_recv_request.cc:
   102-117 (the message counts payloadBytes), then incoming(msg, req): eager0.cc:84-101,
   eager1.cc:103-121, rendezvous_rdma.cc:200-236 *)
Definition matched (m : pmsg) (q : rreq) (rest : list item) (posted : list rreq) (s : pst) : outcome :=
  if size_of (q_type q) (q_count q) <? g_pay m then Abort
  else
    let mt := OMatch (q_id q) (g_id m) in
    match g_prot m with
    | Rendezvous =>
      match inject (get_request m (negb (c_soft c)) (q_recv q)) (s_hp s) with
      | Some (its, h) =>
        Next [mt] {| s_hp := h; s_items := its ++ rest; s_posted := posted; s_sends := s_sends s;
                     s_recvs := (g_id m, q) :: s_recvs s; s_flow := s_flow s; s_req := s_req s |}
      | None => Fault
      end
    | pr =>
      match memcpy (q_recv q) (match pr with Eager0 => g_smsg m | _ => g_local m end)
                   (match pr with Eager0 => g_len m | _ => g_pay m end) (s_hp s) with
      | None => Fault
      | Some h =>
        match (match pr with Eager0 => Some h | _ => free (g_local m) h end) with
        | None => Fault
        | Some h1 =>
          match finalize m q h1 with
          | None => Fault
          | Some h2 =>
            match destroy m h2 with
            | None => Fault
            | Some h3 =>
              Next [ORecvDone (q_id q) (g_id m) (contents (q_final q) h2); mt]
                {| s_hp := h3; s_items := rest; s_posted := posted; s_sends := s_sends s;
                   s_recvs := s_recvs s; s_flow := s_flow s; s_req := s_req s |}
            end
          end
        end
      end
    end.

(* One message moves on *)
Definition moves_on (it : item) (rest : list item) (s : pst) : outcome :=
  match fst it with
  | Net => match arrive (snd it) (s_hp s) with
           | Some (its, h) => Next [] (set_items s h (its ++ rest))
           | None => Fault
           end
  | Cq => handle (snd it) rest s
  | Unexp => Abort
  end.

Definition pst0 (user : nat -> mem Z) : pst :=
  {| s_hp := {| hp_user := user; hp_heap := fun _ => None; hp_next := 0 |}; s_items := []; s_posted := [];
     s_sends := []; s_recvs := []; s_flow := 0; s_req := 0 |}.

(* All histories, latest first *)
Inductive prun (user : nat -> mem Z) : list pobs -> pst -> Prop :=
| p_new : prun user [] (pst0 user)
| p_write : forall h s b x v, prun user h s ->
    prun user (OWrite b x v :: h)
      (set_items s (store (User b) (mset (hp_user (s_hp s) b) x v) (s_hp s)) (s_items s))
| p_send : forall h s b d n pa o s', prun user h s -> send b d n pa s = Some (o, s') -> prun user (o ++ h) s'
| p_post : forall h s b d n o s', prun user h s -> post b d n s = (o, s') -> prun user (o ++ h) s'
| p_move : forall h s l it r o s', prun user h s -> s_items s = l ++ it :: r -> fst it <> Unexp ->
    moves_on it (l ++ r) s = Next o s' -> prun user (o ++ h) s'
| p_match : forall h s l m r k q j o s', prun user h s -> s_items s = l ++ (Unexp, m) :: r ->
    s_posted s = k ++ q :: j -> matched m q (l ++ r) (k ++ j) s = Next o s' -> prun user (o ++ h) s'.
End Steps.
