(** Torus topology and its routers:
    sstmac/hardware/topology/torus.cc, sstmac/hardware/router/torus_routing.cc.
    Simplified throughout: int and SwitchId (uint32_t) are unbounded here; the dimension
    list is the vector dimensions_ (all sizes positive in a real configuration). *)
From Coq Require Import List ZArith Arith Bool.
Import ListNotations.

(** num_switches_, torus.cc:59-64. *)
Fixpoint prod (dims : list nat) : nat :=
  match dims with [] => 1 | d :: r => d * prod r end.

(** Torus::switchCoords, torus.cc:190-201 (the loop with its running divisor). *)
Fixpoint coords_loop (div : nat) (dims : list nat) (uid : nat) : list nat :=
  match dims with
  | [] => []
  | d :: r => ((uid / div) mod d) :: coords_loop (div * d) r uid
  end.
Definition switch_coords (dims : list nat) (uid : nat) : list nat := coords_loop 1 dims uid.

(** Torus::switchAddr, torus.cc:203-213. *)
Fixpoint addr_loop (mult : nat) (dims coords : list nat) : nat :=
  match dims, coords with
  | d :: r, c :: cs => c * mult + addr_loop (mult * d) r cs
  | _, _ => 0
  end.
Definition switch_addr (dims coords : list nat) : nat := addr_loop 1 dims coords.

(** The two distances computed by shortestDistance and shortestPathPositive,
    torus.cc:84-91, 124-131. *)
Definition up_distance (d src dst : nat) : nat :=
  if src <? dst then dst - src else dst + (d - src).
Definition down_distance (d src dst : nat) : nat :=
  if src <? dst then src + (d - dst) else src - dst.

(** Torus::shortestDistance, torus.cc:82-101.  Both remainders are of nonnegative ints. *)
Definition shortest_distance (d src dst : nat) : nat :=
  if down_distance d src dst <? up_distance d src dst
  then (src + d - dst) mod d
  else (dst + d - src) mod d.

(** Torus::shortestPathPositive, torus.cc:121-134. *)
Definition shortest_path_positive (d src dst : nat) : bool :=
  up_distance d src dst <=? down_distance d src dst.

(** Torus::minimalDistance, torus.cc:103-119. *)
Fixpoint mindist_loop (div : nat) (dims : list nat) (src dst : nat) : nat :=
  match dims with
  | [] => 0
  | d :: r => shortest_distance d ((src / div) mod d) ((dst / div) mod d)
              + mindist_loop (div * d) r src dst
  end.
Definition minimal_distance (dims : list nat) (src dst : nat) : nat := mindist_loop 1 dims src dst.

(** Torus::convertToPort, torus.h:124-126; pos = 0, neg = 1 (torus.h:80-83). *)
Definition to_port (dim dir : nat) : nat := 2 * dim + dir.

(** Topology::Connection (topology.h).  The far switch is kept in Z because the code can
    compute a negative one. *)
Record conn := Conn { c_src : nat; c_dst : Z; c_outport : nat; c_inport : nat }.

(** Torus::connectedOutports, torus.cc:148-188. *)
Fixpoint outports_loop (i stride : nat) (dims : list nat) (src : nat) : list conn :=
  match dims with
  | [] => []
  | d :: r =>
      let srcX := (src / stride) mod d in
      let last_row := (Z.of_nat d - 1)%Z in
      let plus_jump := if (Z.of_nat srcX =? last_row)%Z then (- last_row)%Z else 1%Z in
      let minus_jump := if (Z.of_nat srcX =? last_row)%Z then (-1)%Z
                        else if srcX =? 0 then last_row else (-1)%Z in
      Conn src (Z.of_nat src + plus_jump * Z.of_nat stride)%Z (to_port i 0) (to_port i 1)
      :: Conn src (Z.of_nat src + minus_jump * Z.of_nat stride)%Z (to_port i 1) (to_port i 0)
      :: outports_loop (S i) (stride * d) r src
  end.
Definition connected_outports (dims : list nat) (src : nat) : list conn := outports_loop 0 1 dims src.

(** Torus::endpointsConnectedToInjectionSwitch, torus.cc:67-79: (node, switch port). *)
Definition endpoints (dims : list nat) (conc sw : nat) : list (nat * nat) :=
  map (fun i => (sw * conc + i, length dims * 2 + i)) (seq 0 conc).

(** ** Routing *)

(** Router header fields: deadlock_vc, crossed_timeline, last_dim (torus_routing.cc:62-65),
    zeroed when the packet is created (packet.cc:68).  last_dim is a char, signed here. *)
Record hdr := Hdr { h_port : nat; h_vc : nat; h_crossed : bool; h_last : Z }.
Definition hdr0 : hdr := Hdr 0 0 false 0.
Definition to_char (i : nat) : Z := ((Z.of_nat i + 128) mod 256 - 128)%Z.

(** TorusMinimalRouter::upPath, torus_routing.cc:92-106. *)
Definition up_path (dim d srcX : nat) (h : hdr) : hdr :=
  let '(crossed, vc) :=
    if (Z.of_nat srcX =? Z.of_nat d - 1)%Z then (true, 1)
    else if negb (Z.of_nat dim =? h_last h)%Z then (false, 0)
    else (h_crossed h, if h_crossed h then 1 else 0) in
  Hdr (to_port dim 0) vc crossed (to_char dim).

(** TorusMinimalRouter::downPath, torus_routing.cc:108-122. *)
Definition down_path (dim d srcX : nat) (h : hdr) : hdr :=
  let '(crossed, vc) :=
    if srcX =? 0 then (true, 1)
    else if negb (Z.of_nat dim =? h_last h)%Z then (false, 0)
    else (h_crossed h, if h_crossed h then 1 else 0) in
  Hdr (to_port dim 1) vc crossed (to_char dim).

(** TorusMinimalRouter::minimalRoute, torus_routing.cc:124-148; [None] is the abort. *)
Fixpoint route_loop (i div : nat) (dims : list nat) (src dst : nat) (h : hdr) : option hdr :=
  match dims with
  | [] => None
  | d :: r =>
      let srcX := (src / div) mod d in
      let dstX := (dst / div) mod d in
      if negb (srcX =? dstX) then
        if shortest_path_positive d srcX dstX then Some (up_path i d srcX h)
        else Some (down_path i d srcX h)
      else route_loop (S i) (div * d) r src dst h
  end.
Definition minimal_route (dims : list nat) (src dst : nat) (h : hdr) : option hdr :=
  route_loop 0 1 dims src dst h.

(** What a router does with a packet: eject it on a port, forward it, or abort. *)
Inductive outcome (H : Type) := Eject (port : nat) | Forward (port vc : nat) (h : H) | Abort.
Arguments Eject {H}. Arguments Forward {H}. Arguments Abort {H}.

(** TorusMinimalRouter::route, torus_routing.cc:150-160. *)
Definition torus_route (dims : list nat) (conc my nid : nat) (h : hdr) : outcome hdr :=
  if nid / conc =? my then Eject (nid mod conc + 2 * length dims)
  else match minimal_route dims my (nid / conc) h with
       | Some h' => Forward (h_port h') (h_vc h') h'
       | None => Abort
       end.

(** Stages of TorusValiantRouter / TorusUGALRouter, torus_routing.cc:171-173, 263. *)
Inductive stage := Initial | Valiant | Final | MinOnly.
Record vhdr := VHdr { v_hdr : hdr; v_stage : stage; v_dest : nat }.
Definition vhdr0 : vhdr := VHdr hdr0 Initial 0.

(** The final_stage case, torus_routing.cc:241-250. *)
Definition final_case (dims : list nat) (my ej : nat) (h : vhdr) : outcome vhdr :=
  match minimal_route dims my ej (v_hdr h) with
  | Some h' =>
      let h2 := Hdr (h_port h') (h_vc h' + 2) (h_crossed h') (h_last h') in
      Forward (h_port h2) (h_vc h2) (VHdr h2 Final ej)
  | None => Abort
  end.

(** TorusValiantRouter::route, torus_routing.cc:210-255.  [inter] is what getIntermediate
    (torus_routing.cc:200-208) returns.
    Simplified: dest_switch is not truncated to 24 bits. *)
Definition valiant_route (dims : list nat) (conc inter my nid : nat) (h : vhdr) : outcome vhdr :=
  let ej := nid / conc in
  if ej =? my then Eject (nid mod conc + 2 * length dims)
  else match v_stage h with
  | Initial =>
      match minimal_route dims my inter (v_hdr h) with
      | Some h' => Forward (h_port h') (h_vc h') (VHdr h' Valiant inter)
      | None => Abort
      end
  | Valiant =>
      if my =? v_dest h then final_case dims my ej h
      else match minimal_route dims my (v_dest h) (v_hdr h) with
           | Some h' => Forward (h_port h') (h_vc h') (VHdr h' Valiant (v_dest h))
           | None => Abort
           end
  | Final => final_case dims my ej h
  | MinOnly => Abort
  end.

(** TorusUGALRouter::route, torus_routing.cc:282-348.  [choose] tells whether
    ugal_metric < min_metric; the queue lengths it compares are not modelled. *)
Definition ugal_route (dims : list nat) (conc inter : nat) (choose : bool) (my nid : nat) (h : vhdr)
  : outcome vhdr :=
  let ej := nid / conc in
  if ej =? my then Eject (nid mod conc + 2 * length dims)
  else match v_stage h with
  | Initial =>
      let '(dest, st) := if choose then (inter, Valiant) else (ej, MinOnly) in
      match minimal_route dims my dest (v_hdr h) with
      | Some h' => Forward (h_port h') (h_vc h') (VHdr h' st dest)
      | None => Abort
      end
  | Valiant =>
      if my =? v_dest h then final_case dims my ej h
      else match minimal_route dims my (v_dest h) (v_hdr h) with
           | Some h' => Forward (h_port h') (h_vc h') (VHdr h' Valiant (v_dest h))
           | None => Abort
           end
  | Final => final_case dims my ej h
  | MinOnly =>
      match minimal_route dims my ej (v_hdr h) with
      | Some h' => Forward (h_port h') (h_vc h') (VHdr h' MinOnly (v_dest h))
      | None => Abort
      end
  end.

(** TorusPositiveRouter::minimalRoute and route, torus_routing.cc:389-427; the header state is
    the wrapped flag (a 1-bit signed field: nonzero when set). *)
Fixpoint positive_loop (i div : nat) (dims : list nat) (src dst : nat) (wrapped : bool)
  : option (nat * nat * bool) :=
  match dims with
  | [] => None
  | d :: r =>
      let srcX := (src / div) mod d in
      let dstX := (dst / div) mod d in
      let nextX := (srcX + 1) mod d in
      if negb (srcX =? dstX) then
        let '(w, vc) := if (Z.of_nat srcX =? Z.of_nat d - 1)%Z then (true, 1)
                        else (wrapped, if wrapped then 1 else 0) in
        Some (to_port i 0, vc, if nextX =? dstX then false else w)
      else positive_loop (S i) (div * d) r src dst wrapped
  end.
Definition positive_route (dims : list nat) (conc my nid : nat) (w : bool) : outcome bool :=
  if nid / conc =? my then Eject (nid mod conc + 2 * length dims)
  else match positive_loop 0 1 dims my (nid / conc) w with
       | Some (p, vc, w') => Forward p vc w'
       | None => Abort
       end.

(** ** Moving through the network *)

(** The switch at the far end of the cable on an output port, read off connectedOutports. *)
Definition next_switch (dims : list nat) (s port : nat) : option nat :=
  match find (fun c => c_outport c =? port) (connected_outports dims s) with
  | Some c => if ((0 <=? c_dst c) && (c_dst c <? Z.of_nat (prod dims)))%Z
              then Some (Z.to_nat (c_dst c)) else None
  | None => None
  end.

(** A channel: a virtual channel of the cable leaving a switch on a port. *)
Record chan := Chan { ch_switch : nat; ch_port : nat; ch_vc : nat }.

(** Forward a packet hop by hop until it is ejected: the channels used, the switch it is
    ejected at and the ejection port.  [None] when the router aborts, the port has no cable,
    or the fuel runs out. *)
Fixpoint walk {H} (dims : list nat) (route : nat -> H -> outcome H) (fuel s : nat) (h : H)
  : option (list chan * nat * nat) :=
  match fuel with
  | 0 => None
  | S f =>
      match route s h with
      | Eject p => Some ([], s, p)
      | Abort => None
      | Forward p vc h' =>
          match next_switch dims s p with
          | None => None
          | Some s' =>
              match walk dims route f s' h' with
              | Some (tr, e, p') => Some (Chan s p vc :: tr, e, p')
              | None => None
              end
          end
      end
  end.
