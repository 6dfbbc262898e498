(* Cutting messages into packets and putting them together again.
   /repo/sstmac/hardware/pisces/pisces_nic.cc, /repo/sstmac/hardware/common/recv_cq.cc,
   /repo/sstmac/hardware/nic/nic.cc *)
From Coq Require Import List ZArith Bool Arith.
Import ListNotations.
Local Open Scope Z_scope.

(* NetworkMessage: flowId() and byteLength() (flow.h:70-100) *)
Record msg : Type := { m_id : nat; m_len : Z }.

(* PiscesPacket as inject builds it (pisces_nic.cc:147-149): the message it carries, if it
   is the tail; byteLength() and flowId(). *)
Record packet : Type := { k_msg : option msg; k_bytes : Z; k_id : nat }.

(* ---------- sending ---------- *)

(* credits_[0] of the injection buffer, which has one virtual channel
   (pisces_nic.cc:79-80), and pending_inject_[0]: messages and their bytes_sent
   (pisces_nic.h:112-124) *)
Record nic : Type := { c_credit : Z; c_pend : list (msg * Z) }.

(* PiscesNIC::inject, pisces_nic.cc:137-171: the loop from offset off.  PiscesBuffer::
   sendPayload (pisces_buffer.cc:206-219) takes the bytes from the credits.  Every turn but the
   last moves the offset, so the bytes left bound the number of turns. *)
Fixpoint inject_loop (fuel : nat) (mtu : Z) (m : msg) (off credit : Z) : Z * Z * list packet :=
  if mtu <=? credit then
    let bytes := Z.min mtu (m_len m - off) in
    let tail := (off + bytes) =? m_len m in
    let p := {| k_msg := if tail then Some m else None; k_bytes := bytes; k_id := m_id m |} in
    if tail then (off + bytes, credit - bytes, [p])
    else match fuel with
         | O => (off + bytes, credit - bytes, [p])
         | S f => let '(o, c, ps) := inject_loop f mtu m (off + bytes) (credit - bytes) in (o, c, p :: ps)
         end
  else (off, credit, []).
Definition inject (mtu : Z) (m : msg) (off credit : Z) : Z * Z * list packet :=
  inject_loop (Z.to_nat (m_len m - off)) mtu m off credit.

(* PiscesNIC::doSend, pisces_nic.cc:173-183 *)
Definition do_send (mtu : Z) (s : nic) (m : msg) : nic * list packet :=
  let '(off, c, ps) := inject mtu m 0 (c_credit s) in
  if off <? m_len m
  then ({| c_credit := c; c_pend := c_pend s ++ [(m, off)] |}, ps)
  else ({| c_credit := c; c_pend := c_pend s |}, ps).

(* The loop of PiscesNIC::packetSent, pisces_nic.cc:205-215 *)
Fixpoint resume (mtu : Z) (pend : list (msg * Z)) (credit : Z) : Z * list (msg * Z) * list packet :=
  match pend with
  | [] => (credit, [], [])
  | (m, off) :: r =>
    let '(o, c, ps) := inject mtu m off credit in
    if o =? m_len m
    then let '(c', r', ps') := resume mtu r c in (c', r', ps ++ ps')
    else (c, (m, o) :: r, ps)
  end.

(* PiscesNIC::packetSent, pisces_nic.cc:198-216; PiscesBuffer::handleCredit adds n credits
   (the injection buffer's own queue is always empty). *)
Definition packet_sent (mtu : Z) (s : nic) (n : Z) : nic * list packet :=
  let '(c, r, ps) := resume mtu (c_pend s) (c_credit s + n) in
  ({| c_credit := c; c_pend := r |}, ps).

Inductive act : Type := Send (m : msg) | Credit (n : Z).
Definition nic_step (mtu : Z) (s : nic) (a : act) : nic * list packet :=
  match a with Send m => do_send mtu s m | Credit n => packet_sent mtu s n end.
Fixpoint nic_run (mtu : Z) (s : nic) (l : list act) : nic * list packet :=
  match l with
  | [] => (s, [])
  | a :: r => let '(s1, p1) := nic_step mtu s a in let '(s2, p2) := nic_run mtu s1 r in (s2, p1 ++ p2)
  end.

(* NIC::negligibleSize, nic.h:209-211: byteLength() is converted to int. *)
Definition to_int (z : Z) : Z := let u := z mod 2 ^ 32 in if u <? 2 ^ 31 then u else u - 2 ^ 32.
Definition negligible (limit : Z) (len : Z) : bool := to_int len <=? limit.

(* NIC::internodeSend, nic.cc:313-329: true if the message goes to doSend and not to the
   congestion-free manager network *)
Definition uses_network (limit : Z) (m : msg) : bool := negb (negligible limit (m_len m)).

(* ---------- receiving ---------- *)

(* RecvCQ::incomingMsg, recv_cq.h:81-91.  The map bytes_recved_ is a function; an absent
   entry is the default one, which operator[] would create (recv_cq.cc:77). *)
Record incoming : Type := { a_msg : option msg; a_arrived : Z; a_total : Z }.
Definition fresh : incoming := {| a_msg := None; a_arrived := 0; a_total := 0 |}.
Definition cq : Type := nat -> incoming.
Definition cq0 : cq := fun _ => fresh.

(* RecvCQ::recv, recv_cq.cc:74-106; uint64_t sums *)
Definition recv (q : cq) (p : packet) : cq * option msg :=
  let inc := q (k_id p) in
  let inc1 := match k_msg p with
              | Some m => {| a_msg := Some m; a_arrived := a_arrived inc; a_total := m_len m |}
              | None => inc
              end in
  let arrived := (a_arrived inc1 + k_bytes p) mod 2 ^ 64 in
  if arrived =? a_total inc1
  then ((fun i => if Nat.eqb i (k_id p) then fresh else q i), a_msg inc1)
  else ((fun i => if Nat.eqb i (k_id p)
         then {| a_msg := a_msg inc1; a_arrived := arrived; a_total := a_total inc1 |} else q i), None).

(* PiscesNIC::packetArrived, pisces_nic.cc:185-196, for each packet in turn: what recvMessage
   is called with *)
Fixpoint recv_all (q : cq) (l : list packet) : list (option msg) :=
  match l with
  | [] => []
  | p :: r => let '(q1, o) := recv q p in o :: recv_all q1 r
  end.
