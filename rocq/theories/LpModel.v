(** The LogP network: injection and reception at a NIC (sstmac/hardware/logp/logp_nic.cc), the overlay path
    for small messages (sstmac/hardware/nic/nic.cc) and the delay in the network
    (sstmac/hardware/logp/logp_switch.cc).
    Simplified: times are ticks, unbounded above; without random_seed and without a contention model; the
    number of hops of a message is given (the topology is elsewhere); needsAck is true; statistics and debug
    output are not modelled. *)
From Coq Require Import List NArith ZArith Bool.
Import ListNotations.
Open Scope N_scope.

(** LogPNIC::LogPNIC, logp_nic.cc:58-67; NIC::negligibleSize_, nic.cc:105; LogPSwitch::LogPSwitch,
    logp_switch.cc:66-85; the link from the NIC to the switch has no latency and the link back has
    out_in_latency, interconnect.cc:344-382. *)
Record cfg := mkcfg {
  inj_lat : N; inj_bd : N; negl : N; net_bd : N; hop_lat : N; out_in : N }.

(** NetworkMessage: who sends it, when the NIC of the sender gets it, over how many hops, how long. *)
Record msg := mkmsg { mid : N; src : N; hops : N; at_ : N; len : N }.

(** The conversion of a uint64_t to an int argument. *)
Definition to_int (n : N) : Z :=
  let m := n mod 2 ^ 32 in
  if m <? 2 ^ 31 then Z.of_N m else (Z.of_N m - 2 ^ 32)%Z.

(** NIC::negligibleSize, nic.h:209-211; the argument is an int. *)
Definition negligible (c : cfg) (n : N) : bool := (to_int n <=? Z.of_N (negl c))%Z.

(** NIC::internodeSend, nic.cc:312-331, with NIC::sendManagerMsg, nic.cc:333-347, and LogPNIC::doSend,
    logp_nic.cc:95-115. [free] is next_out_free_; the result is when the message starts into the network,
    when it is acknowledged, and the new next_out_free_. *)
Definition inject (c : cfg) (free : N) (m : msg) : N * N * N :=
  if negligible c (len m) then (at_ m, at_ m, free)
  else
    let start := if free <? at_ m then at_ m else free in
    let f := start + (inj_lat c + inj_bd c * len m) in
    (start, f, f).

(** LogPSwitch::send, logp_switch.cc:122-155: when the message is at the NIC of the receiver. *)
Definition arrival (c : cfg) (m : msg) (start : N) : N :=
  start + (net_bd c * len m + hops m * hop_lat c) + out_in c.

(** operator-(Timestamp, TimeDelta), timestamp.h:303-313: [None] is the value after an underflow, which is
    greater than every time (remainder_bits_mask is ~0, timestamp.h:264, and epochs is unsigned). *)
Definition sub (a b : N) : option N := if b <? a then Some (a - b) else None.

(** LogPNIC::mtlHandle, logp_nic.cc:73-93: a message is at the NIC at [now], [free] is next_in_free_; when
    recvMessage is called, and the new next_in_free_. *)
Definition receive (c : cfg) (free now n : N) : N * N :=
  if n <? negl c then (now, free)
  else
    let t := inj_bd c * n in
    let late := match sub now t with Some s => free <? s | None => true end in
    if late then (now, now) else (free + t, free + t).

(** All messages that a node gets, in the order in which their senders' NICs handle them; [fs] is
    next_out_free_ of each sender. The message with the start, the acknowledgement and the arrival. *)
Record flight := mkflight { fmsg : msg; fstart : N; fack : N; farr : N }.
Fixpoint inject_all (c : cfg) (fs : N -> N) (l : list msg) : list flight :=
  match l with
  | [] => []
  | m :: t =>
      let '(s, a, f) := inject c (fs (src m)) m in
      mkflight m s a (arrival c m s) :: inject_all c (fun x => if x =? src m then f else fs x) t
  end.
(** The event queue: by arrival time, and at equal times in the order of the senders' events. *)
Fixpoint place (x : flight) (l : list flight) : list flight :=
  match l with
  | [] => [x]
  | y :: t => if farr x <=? farr y then x :: l else y :: place x t
  end.
Fixpoint order (l : list flight) : list flight :=
  match l with [] => [] | x :: t => place x (order t) end.
(** The NIC of the receiver; the message with the time of recvMessage. *)
Fixpoint receive_all (c : cfg) (free : N) (l : list flight) : list (flight * N) :=
  match l with
  | [] => []
  | x :: t => let '(e, f) := receive c free (farr x) (len (fmsg x)) in (x, e) :: receive_all c f t
  end.
Definition deliver (c : cfg) (l : list msg) : list (flight * N) :=
  receive_all c 0 (order (inject_all c (fun _ => 0) l)).
