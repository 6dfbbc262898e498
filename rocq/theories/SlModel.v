(** The SCULPIN network model: an output port of sstmac/hardware/sculpin/sculpin_switch.{h,cc} and the
    injection and ejection side of sculpin_nic.cc.
    Simplified: times are ticks (natural numbers, unbounded); a sequence number does not wrap around
    (uint32_t in the code); one port of one switch, routing is elsewhere (the port of a packet is given);
    statistics and debug output are not modelled. *)
From Coq Require Import List Arith Bool NArith.
Import ListNotations.

(** SculpinPacket, sculpin.h:66-135: what comes with the packet. *)
Record raw := mkraw { id : nat; size : nat; prio : nat }.
(** ... and what a switch writes into it: setArrival, setSeqnum. *)
Record pkt := mkpkt { body : raw; arr : nat; seq : nat }.

(** priority_compare, sculpin_switch.h:122-135. *)
Definition before (l r : pkt) : bool :=
  if prio (body l) =? prio (body r) then
    if arr l =? arr r then seq l <? seq r else arr l <? arr r
  else prio (body l) <? prio (body r).

(** std::set::insert: an element that compares equal to one in the set is not inserted. *)
Fixpoint insert (p : pkt) (q : list pkt) : list pkt :=
  match q with
  | [] => [p]
  | x :: t => if before p x then p :: q else if before x p then x :: insert p t else q
  end.

(** SculpinSwitch::Port, sculpin_switch.h:137-146, with the times of the scheduled pullNext events and
    what was sent over the link with the time at which the packet starts on it. *)
Record port := mkport {
  free : nat; seqn : nat; queue : list pkt; pulls : list nat; sent : list (pkt * nat) }.
Definition port0 : port := mkport 0 0 [] [] [].

(** SculpinSwitch::send, sculpin_switch.cc:189-240; [d] is byte_delay. *)
Definition send (d : nat) (p : port) (k : pkt) (now : nat) : port :=
  let f := if free p <? now then now else free p in
  let extra := f - now in
  let f' := f + size (body k) * d in
  let s := sent p ++ [(k, now + extra)] in
  match queue p with
  | [] => mkport f' 0 [] (pulls p) s
  | q => mkport f' (seqn p) q (pulls p ++ [f']) s
  end.

(** SculpinSwitch::tryToSendPacket, sculpin_switch.cc:257-291; [c] is congestion_. *)
Definition try_send (c : bool) (d : nat) (p : port) (r : raw) (now : nat) : port :=
  let k := mkpkt r now (seqn p) in
  let p1 := mkport (free p) (S (seqn p)) (queue p) (pulls p) (sent p) in
  if negb c then
    mkport (free p + size r * d) (S (seqn p)) (queue p) (pulls p) (sent p ++ [(k, now)])
  else if now <? free p then
    mkport (free p) (S (seqn p)) (insert k (queue p))
      (match queue p with [] => pulls p ++ [free p] | _ => pulls p end) (sent p)
  else match queue p with
       | [] => send d p1 k now
       | _ => mkport (free p) (S (seqn p)) (insert k (queue p)) (pulls p) (sent p)
       end.

(** SculpinSwitch::pullNext, sculpin_switch.cc:242-255; [None]: spkt_abort_printf. *)
Definition pull_next (d : nat) (p : port) (now : nat) : option port :=
  match queue p with
  | [] => None
  | k :: q => Some (send d (mkport (free p) (seqn p) q (pulls p) (sent p)) k now)
  end.

(** The port in time: a packet comes at a time, or the next scheduled pull is executed. Events are executed
    in the order of their times; at equal times any order is possible. [Never]: the event is not the
    next. *)
Inductive op := Try (t : nat) (r : raw) | Pull.
Inductive res := Ok (now : nat) (p : port) | Abort | Never.
Definition step (c : bool) (d : nat) (a : op) (now : nat) (p : port) : res :=
  match a with
  | Try t r => if (now <=? t) && forallb (fun x => t <=? x) (pulls p)
               then Ok t (try_send c d p r t) else Never
  | Pull => match pulls p with
            | [] => Never
            | t :: l => match pull_next d (mkport (free p) (seqn p) (queue p) l (sent p)) t with
                        | Some p' => Ok t p'
                        | None => Abort
                        end
            end
  end.
Fixpoint run (c : bool) (d : nat) (l : list op) (now : nat) (p : port) : res :=
  match l with
  | [] => Ok now p
  | a :: t => match step c d a now p with Ok n' p' => run c d t n' p' | e => e end
  end.

(** SculpinSwitch::handlePayload, sculpin_switch.cc:313-332: the head comes at [t], the packet took [a] to be
    sent over the last link; when the packet is tried at the port. *)
Definition try_time (d : nat) (r : raw) (t a : nat) : nat :=
  let b := d * size r in if b <? a then t + (a - b) else t.

(** SculpinNIC::doSend, sculpin_nic.cc:128-158: the sizes of the packets of a message; [None]: the loop has
    not ended after [fuel] rounds; uint32_t(bytes_left) is modulo 2^32. *)
Fixpoint cut (fuel : nat) (mtu bytes : N) : option (list N) :=
  match fuel with
  | O => None
  | S f =>
      if (0 <? bytes)%N then
        let s := N.min (bytes mod 2 ^ 32)%N mtu in
        match cut f mtu (bytes - s)%N with Some l => Some (s :: l) | None => None end
      else Some []
  end.
(** The injection times of the packets, sculpin_nic.cc:136-164: [free] is inj_next_free_; the start of each
    packet with its size, and the time of the acknowledgement, which is the new inj_next_free_. *)
Fixpoint inject_from (d free : nat) (sizes : list nat) : list (nat * nat) * nat :=
  match sizes with
  | [] => ([], free)
  | s :: t => let '(l, f) := inject_from d (free + s * d) t in ((free, s) :: l, f)
  end.
Definition inject (d free now : nat) (sizes : list nat) : list (nat * nat) * nat :=
  inject_from d (if free <? now then now else free) sizes.

(** SculpinNIC::handlePayload and eject, sculpin_nic.cc:177-206: the time of the eject call, and the time of
    cqHandle, which is the new ej_next_free_. *)
Definition eject_time (d : nat) (s t a : nat) : nat :=
  let b := s * d in if b <? a then t + (a - b) else t.
Definition eject (d free now s : nat) : nat := (if free <? now then now else free) + s * d.
