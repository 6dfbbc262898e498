(* Credit flow control of the PISCES network model: crossbars, output buffers and
   network interfaces joined by links.
   /repo/sstmac/hardware/pisces/pisces_sender.cc, pisces_crossbar.cc,
   pisces_buffer.cc, pisces_switch.cc, pisces_nic.cc, pisces.h *)
From Coq Require Import List ZArith Bool Arith.
From Verif Require Import PtModel.
Import ListNotations.
Local Open Scope Z_scope.

(* PiscesPacket, pisces.h:67-190: numBytes(), current_vc_, the header's deadlock_vc
   (nextVC), inport_ and the entry of outports_ for the current stage.  p_id stands for
   the rest. *)
Record pkt : Type := { p_id : nat; p_bytes : Z; p_vc : nat; p_next : nat; p_in : nat; p_out : nat }.

(* Comparing an int with a uint32_t converts the int (pisces_sender.cc:64,
   pisces_crossbar.cc:222, pisces_buffer.cc:192). *)
Definition u32 (z : Z) : Z := z mod 2 ^ 32.

(* PayloadQueue::pop, pisces_sender.cc:58-70: the first queued packet that fits. *)
Fixpoint pop (credits : Z) (q : list pkt) : option (pkt * list pkt) :=
  match q with
  | [] => None
  | p :: r =>
    if p_bytes p <=? u32 credits then Some (p, r)
    else match pop credits r with
         | Some (x, r') => Some (x, p :: r')
         | None => None
         end
  end.

(* credits_ and queues_ of a PiscesNtoMQueue (crossbar.h:86-98) or of a PiscesBuffer
   (buffer.h:99-100); for a network interface, queues_ has one entry, the packets that
   wait for packetArrived. *)
Record comp : Type := { credits : list Z; queues : list (list pkt) }.

Definition credit_of (st : comp) (s : nat) : Z := nth s (credits st) 0.
Definition queue_of (st : comp) (s : nat) : list pkt := nth s (queues st) [].
Definition set_credit (st : comp) (s : nat) (c : Z) : comp :=
  {| credits := set_nth (credits st) s c; queues := queues st |}.
Definition set_queue (st : comp) (s : nat) (q : list pkt) : comp :=
  {| credits := credits st; queues := set_nth (queues st) s q |}.

(* PiscesNtoMQueue::slot, pisces_crossbar.h:81-83 *)
Definition slot (nvc port vc : nat) : nat := (port * nvc + vc)%nat.

(* The virtual channel a packet uses when it leaves: pisces_crossbar.cc:202 and
   pisces_sender.cc:147. *)
Definition leave_vc (upd : bool) (p : pkt) : nat := if upd then p_next p else p_vc p.

(* PiscesNtoMQueue::handlePayload, pisces_crossbar.cc:196-232.  The second component is
   what is sent. *)
Definition xbar_payload (nvc : nat) (upd : bool) (st : comp) (p : pkt) : comp * list pkt :=
  let s := slot nvc (p_out p) (leave_vc upd p) in
  let c := credit_of st s in
  if p_bytes p <=? u32 c then (set_credit st s (c - p_bytes p), [p])
  else (set_queue st s (queue_of st s ++ [p]), []).

(* PiscesNtoMQueue::handleCredit, pisces_crossbar.cc:160-194: one packet at most *)
Definition xbar_credit (nvc : nat) (st : comp) (port vc : nat) (n : Z) : comp * list pkt :=
  let s := slot nvc port vc in
  let c := credit_of st s + n in
  match pop c (queue_of st s) with
  | Some (p, q) => (set_queue (set_credit st s (c - p_bytes p)) s q, [p])
  | None => (set_credit st s c, [])
  end.

(* PiscesBuffer::handlePayload, pisces_buffer.cc:169-204 *)
Definition buf_payload (st : comp) (p : pkt) : comp * list pkt :=
  let c := credit_of st (p_vc p) in
  if p_bytes p <=? u32 c then (set_credit st (p_vc p) (c - p_bytes p), [p])
  else (set_queue st (p_vc p) (queue_of st (p_vc p) ++ [p]), []).

(* The loop of PiscesBuffer::handleCredit, pisces_buffer.cc:153-164.  Each turn takes
   a packet out of the queue, so its length bounds the number of turns. *)
Fixpoint drain (fuel : nat) (c : Z) (q : list pkt) : Z * list pkt * list pkt :=
  match pop c q with
  | None => (c, q, [])
  | Some (p, r) =>
    match fuel with
    | O => (c, q, [])
    | S k => let '(c', q', out) := drain k (c - p_bytes p) r in (c', q', p :: out)
    end
  end.

(* PiscesBuffer::handleCredit, pisces_buffer.cc:118-167 *)
Definition buf_credit (st : comp) (vc : nat) (n : Z) : comp * list pkt :=
  let '(c, q, out) := drain (length (queue_of st vc)) (credit_of st vc + n) (queue_of st vc) in
  (set_queue (set_credit st vc c) vc q, out).

(* PiscesBuffer::spaceToSend and sendPayload, pisces_buffer.h:75-77 and
   pisces_buffer.cc:206-219, as PiscesNIC::inject calls them for one packet
   (pisces_nic.cc:143-155): nothing happens unless a packet of full size fits. *)
Definition inject_one (mtu : Z) (st : comp) (p : pkt) : comp * list pkt :=
  if mtu <=? credit_of st (p_vc p)
  then (set_credit st (p_vc p) (credit_of st (p_vc p) - p_bytes p), [p])
  else (st, []).

(* ---------- the network ---------- *)

(* PiscesCrossbar of a switch, PiscesBuffer, receiving side of a PiscesNIC *)
Inductive kind : Type := Xbar | Buf | Nic.

(* The number of components.  Ports and virtual channels of each component (pisces_switch.cc:121-133,
   pisces_nic.cc:79-80); where each output leads (connectOutput, pisces_switch.cc:164-186,
   pisces_nic.cc:117-127); whom each input credits, if anyone (setInput,
   pisces_switch.cc:181, 203, pisces_nic.cc:129-135); the credits given to setOutput;
   the injection packet size. *)
Record net : Type := {
  n_size : nat;
  n_kind : nat -> kind;
  n_ports : nat -> nat;
  n_vcs : nat -> nat;
  n_dst : nat -> nat -> nat * nat;
  n_src : nat -> nat -> option (nat * nat);
  n_credits : nat -> nat -> Z;
  n_mtu : Z
}.

(* Only crossbars update the virtual channel (pisces_switch.cc:123, pisces_buffer.cc:87). *)
Definition upd (g : net) (c : nat) : bool := match n_kind g c with Xbar => true | _ => false end.

(* setOutput of both senders: pisces_crossbar.cc:285-296 and pisces_buffer.cc:77-81 *)
Definition initial (g : net) (c p : nat) : Z := n_credits g c p / Z.of_nat (n_vcs g c).

(* Packets on links: the component and input port they arrive at.  Credits on links: a
   PiscesCredit for a component, its port and virtual channel.  Links deliver in any
   order here, which includes the order of their delays. *)
Record state : Type := {
  comps : nat -> comp;
  wires : list (nat * nat * pkt);
  cwires : list (nat * nat * nat * Z)
}.

Definition init_comp (g : net) (c : nat) : comp :=
  match n_kind g c with
  | Nic => {| credits := []; queues := [[]] |}
  | _ => {| credits := flat_map (fun p => repeat (initial g c p) (n_vcs g c)) (seq 0 (n_ports g c));
            queues := repeat [] (n_ports g c * n_vcs g c) |}
  end.

Definition init (g : net) : state := {| comps := init_comp g; wires := []; cwires := [] |}.

(* PiscesSender::send, pisces_sender.cc:105-154, without the times: the packet goes to
   the destination of its output, with the new virtual channel; *)
Definition on_wire (g : net) (c : nat) (p : pkt) : nat * nat * pkt :=
  (n_dst g c (p_out p),
   {| p_id := p_id p; p_bytes := p_bytes p; p_vc := leave_vc (upd g c) p; p_next := p_next p;
      p_in := p_in p; p_out := p_out p |}).
(* and sendCredit, pisces_sender.cc:81-103: its old virtual channel is credited. *)
Definition on_credit (g : net) (c : nat) (p : pkt) : list (nat * nat * nat * Z) :=
  match n_src g c (p_in p) with
  | Some (c', port) => [(c', port, p_vc p, p_bytes p)]
  | None => []
  end.

(* A component changed and sent packets. *)
Definition put (g : net) (s : state) (c : nat) (r : comp * list pkt) : state :=
  {| comps := fun x => if Nat.eqb x c then fst r else comps s x;
     wires := wires s ++ map (on_wire g c) (snd r);
     cwires := cwires s ++ flat_map (on_credit g c) (snd r) |}.

Fixpoint remove_at {A} (n : nat) (l : list A) : list A :=
  match l, n with
  | [], _ => []
  | _ :: r, O => r
  | x :: r, S k => x :: remove_at k r
  end.

(* Packet number k on the links arrives.  At a switch the router has chosen the port
   out and the virtual channel v (PiscesSwitch::InputPort::handle,
   pisces_switch.cc:188-197; the port is kept in 8 bits, out is the port after that). *)
(* Credit number k arrives. *)
(* A network interface is done with its waiting packet number k (packetArrived,
   pisces_nic.cc:185-196). *)
(* A network interface injects a packet (inject, pisces_nic.cc:143-155). *)
Inductive event : Type :=
  EPay (k out v : nat) | ECred (k : nat) | EArr (c k : nat) | EInj (c id : nat) (bytes : Z).

Definition gstep (g : net) (s : state) (e : event) : option state :=
  match e with
  | EPay k out v =>
    match nth_error (wires s) k with
    | None => None
    | Some (d, i, p) =>
      let s1 := {| comps := comps s; wires := remove_at k (wires s); cwires := cwires s |} in
      match n_kind g d with
      | Xbar =>
        if (out <? n_ports g d)%nat && (v <? n_vcs g d)%nat then
          let p1 := {| p_id := p_id p; p_bytes := p_bytes p; p_vc := p_vc p; p_next := v;
                       p_in := i; p_out := out |} in
          Some (put g s1 d (xbar_payload (n_vcs g d) true (comps s d) p1))
        else None
      | Buf =>
        let p1 := {| p_id := p_id p; p_bytes := p_bytes p; p_vc := p_vc p; p_next := p_next p;
                     p_in := i; p_out := 0%nat |} in
        Some (put g s1 d (buf_payload (comps s d) p1))
      | Nic =>
        let p1 := {| p_id := p_id p; p_bytes := p_bytes p; p_vc := p_vc p; p_next := p_next p;
                     p_in := i; p_out := 0%nat |} in
        Some (put g s1 d (set_queue (comps s d) 0 (queue_of (comps s d) 0 ++ [p1]), []))
      end
    end
  | ECred k =>
    match nth_error (cwires s) k with
    | None => None
    | Some (c, port, vc, n) =>
      let s1 := {| comps := comps s; wires := wires s; cwires := remove_at k (cwires s) |} in
      match n_kind g c with
      | Xbar => Some (put g s1 c (xbar_credit (n_vcs g c) (comps s c) port vc n))
      | Buf => Some (put g s1 c (buf_credit (comps s c) vc n))
      | Nic => None
      end
    end
  | EArr c k =>
    match n_kind g c, nth_error (queue_of (comps s c) 0) k with
    | Nic, Some p =>
      Some {| comps := fun x => if Nat.eqb x c
                then set_queue (comps s c) 0 (remove_at k (queue_of (comps s c) 0)) else comps s x;
              wires := wires s;
              cwires := cwires s ++ on_credit g c p |}
    | _, _ => None
    end
  | EInj c id bytes =>
    match n_kind g c, n_src g c 0%nat with
    | Buf, None =>
      if (0 <=? bytes) && (bytes <=? n_mtu g) && (c <? n_size g)%nat && (0 <? n_vcs g c)%nat && (0 <? n_ports g c)%nat then
        let p := {| p_id := id; p_bytes := bytes; p_vc := 0%nat; p_next := 0%nat; p_in := 0%nat;
                    p_out := 0%nat |} in
        Some (put g s c (inject_one (n_mtu g) (comps s c) p))
      else None
    | _, _ => None
    end
  end.

Fixpoint run (g : net) (s : state) (es : list event) : option state :=
  match es with
  | [] => Some s
  | e :: r => match gstep g s e with Some s1 => run g s1 r | None => None end
  end.
