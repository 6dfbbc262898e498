(* The injection side of the SNAPPR NIC: injection queues, the loop that copies queued
   messages packet by packet into the buffer of the NIC, and the lanes of the packets
   (sstmac/hardware/snappr/snappr_nic.cc). *)
From Coq Require Import List ZArith Bool Arith Lia.
From Verif Require Import PtModel.
Import ListNotations.
Local Open Scope Z_scope.

(* What the NIC reads of a NetworkMessage: flowId, byteLength, qos, and whether its type
   is rdma_get_request (snappr_nic.cc:374-384) *)
Record nmsg : Type := { n_id : nat; n_len : Z; n_qos : Z; n_get : bool }.

(* A SnapprPacket as built in injectPacket, snappr_nic.cc:388-395; only the tail packet
   carries the message itself, np_id is the flow id. *)
Record npkt : Type := { np_id : nat; np_off : Z; np_len : Z; np_tail : bool; np_qos : Z; np_lane : Z }.

(* SnapprNIC::InjectionQueue, snappr_nic.h:110-127: entries are a byte offset and a
   message. front() of an empty queue and a null message are None. *)
Record iqueue (Q : Type) : Type := {
  q_insert : Z -> nmsg -> Q -> Q;
  q_top : Q -> option (Z * nmsg);
  q_pop : Q -> Q;
  q_adjust : Z -> Q -> Q;
  q_empty : Q -> bool }.
Arguments q_insert {Q}. Arguments q_top {Q}. Arguments q_pop {Q}. Arguments q_adjust {Q}. Arguments q_empty {Q}.

(* FIFOQueue, snappr_nic.cc:411-445: a std::queue, oldest entry first *)
Definition fifo_q : iqueue (list (Z * nmsg)) := {|
  q_insert := fun off m q => q ++ [(off, m)];
  q_top := fun q => match q with [] => None | e :: _ => Some e end;
  q_pop := fun q => match q with [] => [] | _ :: r => r end;
  q_adjust := fun off q => match q with [] => [] | (_, m) :: r => (off, m) :: r end;
  q_empty := fun q => match q with [] => true | _ => false end |}.

(* RoundRobinQueue, snappr_nic.cc:493-540: a ring of slots that is not checked for being
   full. The size of the vector is a parameter here, 1024 at line 504. *)
Record ring : Type := { r_begin : nat; r_end : nat; r_slots : list (option (Z * nmsg)) }.
(* begin_++ or end_++ with the wrap at 511-514, 529-532 *)
Definition wrap (r : ring) (i : nat) : nat := if Nat.eqb (S i) (length (r_slots r)) then 0%nat else S i.
(* insert, 527-533 *)
Definition ring_put (e : option (Z * nmsg)) (r : ring) : ring :=
  {| r_begin := r_begin r; r_end := wrap r (r_end r); r_slots := set_nth (r_slots r) (r_end r) e |}.
(* pop, 510-515 *)
Definition ring_pop (r : ring) : ring :=
  {| r_begin := wrap r (r_begin r); r_end := r_end r; r_slots := r_slots r |}.
(* top, 506-508 *)
Definition ring_top (r : ring) : option (Z * nmsg) := nth (r_begin r) (r_slots r) None.
(* adjustTop, 521-525 *)
Definition ring_adjust (off : Z) (r : ring) : ring :=
  ring_pop (ring_put (match ring_top r with Some (_, m) => Some (off, m) | None => None end) r).
Definition ring_q : iqueue ring := {|
  q_insert := fun off m => ring_put (Some (off, m));
  q_top := ring_top;
  q_pop := ring_pop;
  q_adjust := ring_adjust;
  q_empty := fun r => Nat.eqb (r_begin r) (r_end r) |}.
(* The constructor, 503-504 *)
Definition ring_new (size : nat) : ring := {| r_begin := 0; r_end := 0; r_slots := repeat None size |}.
Definition rr_size : nat := 1024.

(* packet_size_, flow_control_, qos_levels_, rdma_get_req_qos_, scatter_qos_
   (snappr_nic.cc:81-91, 137) *)
Record ncfg : Type := { c_mtu : Z; c_flow : bool; c_levels : Z; c_get : Z; c_scatter : bool }.

(* inject_queue_, buffer_remaining_, next_qos_, and whether copyToNicBuffer is running *)
Record nic (Q : Type) : Type := { ni_q : Q; ni_buf : Z; ni_next : Z; ni_copying : bool }.
Arguments ni_q {Q}. Arguments ni_buf {Q}. Arguments ni_next {Q}. Arguments ni_copying {Q}.

(* The qos of the packets of a message, snappr_nic.cc:381-384 *)
Definition pkt_qos (c : ncfg) (m : nmsg) : Z :=
  if negb (c_get c =? -1) && n_get m then c_get c else n_qos m.

(* injectPacket, snappr_nic.cc:371-399: the packet and next_qos_ afterwards; None is the
   abort at line 386. *)
Definition inject (c : ncfg) (off : Z) (m : nmsg) (next : Z) : option (npkt * Z) :=
  let left := n_len m - off in
  let size := Z.min left (c_mtu c) in
  let qos := pkt_qos c m in
  if c_levels c <=? qos then None
  else
    let lane := if c_scatter c then next else n_qos m in
    Some ({| np_id := n_id m; np_off := off; np_len := size; np_tail := left =? size;
             np_qos := qos; np_lane := lane |},
          if c_scatter c then (next + 1) mod (c_levels c) else next).

(* One turn of the loop of copyToNicBuffer, snappr_nic.cc:220-254, with ignore_memory set
   (the default, line 149): stop, a packet, or the abort of injectPacket. *)
Inductive turn (Q : Type) : Type := Stop (s : nic Q) | Packet (p : npkt) (s : nic Q) | Abort.
Arguments Stop {Q}. Arguments Packet {Q}. Arguments Abort {Q}.
Definition copy_turn {Q} (I : iqueue Q) (c : ncfg) (s : nic Q) : turn Q :=
  let stop := Stop {| ni_q := ni_q s; ni_buf := ni_buf s; ni_next := ni_next s; ni_copying := false |} in
  if q_empty I (ni_q s) then stop
  else
    match q_top I (ni_q s) with
    | None => Abort
    | Some (off, m) =>
      let left := n_len m - off in
      let size := Z.min left (c_mtu c) in
      if size <=? ni_buf s then
        match inject c off m (ni_next s) with
        | None => Abort
        | Some (p, next) =>
          Packet p {| ni_q := if size =? left then q_pop I (ni_q s) else q_adjust I (off + size) (ni_q s);
                      ni_buf := if c_flow c then ni_buf s - size else ni_buf s;
                      ni_next := next; ni_copying := true |}
        end
      else stop
    end.

(* What happens at the NIC: doSend (snappr_nic.cc:257-265), handleCredit (342-352, without
   the output port, which is SpModel) and the packets given to the output port *)
Inductive nobs : Type := Sent (m : nmsg) | Credited (n : Z) | Injected (p : npkt).

(* All histories (latest first): calls come when the loop is not running, and each call
   starts it. *)
Inductive nrun {Q} (I : iqueue Q) (c : ncfg) (q0 : Q) (buf0 next0 : Z) : list nobs -> nic Q -> Prop :=
| nrun_new : nrun I c q0 buf0 next0 [] {| ni_q := q0; ni_buf := buf0; ni_next := next0; ni_copying := false |}
| nrun_send : forall h s m, nrun I c q0 buf0 next0 h s -> ni_copying s = false -> 0 <= n_len m ->
    nrun I c q0 buf0 next0 (Sent m :: h)
      {| ni_q := q_insert I 0 m (ni_q s); ni_buf := ni_buf s; ni_next := ni_next s; ni_copying := true |}
| nrun_credit : forall h s n, nrun I c q0 buf0 next0 h s -> ni_copying s = false -> 0 <= n ->
    nrun I c q0 buf0 next0 (Credited n :: h)
      {| ni_q := ni_q s; ni_buf := ni_buf s + n; ni_next := ni_next s; ni_copying := true |}
| nrun_stop : forall h s s', nrun I c q0 buf0 next0 h s -> ni_copying s = true ->
    copy_turn I c s = Stop s' -> nrun I c q0 buf0 next0 h s'
| nrun_packet : forall h s p s', nrun I c q0 buf0 next0 h s -> ni_copying s = true ->
    copy_turn I c s = Packet p s' -> nrun I c q0 buf0 next0 (Injected p :: h) s'.
