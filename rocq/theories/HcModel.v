(** Hypercube and fully connected topologies and the hypercube routers:
    sstmac/hardware/topology/hypercube.cc, fully_connected.cc,
    sstmac/hardware/router/hypercube_routing.cc.
    Simplified: ints are unbounded. *)
From Coq Require Import List ZArith Arith Bool.
From Verif Require Import TorusModel NetModel.
Import ListNotations.

(** dim_to_outport_ (hypercube.cc:57-62) and convertToPort (hypercube.h:91-93). *)
Definition dim_to_outport (dims : list nat) (dim : nat) : nat := list_sum (firstn dim dims).
Definition hc_port (dims : list nat) (dim v : nat) : nat := dim_to_outport dims dim + v.

(** Hypercube::connectedOutports, hypercube.cc:156-189.  [all] is dimensions_, the loop runs
    over its tail from dimension [i]. *)
Fixpoint hc_outports_loop (all : list nat) (i stride : nat) (dims : list nat) (src : nat) : list conn :=
  match dims with
  | [] => []
  | d :: r =>
      let srcX := (src / stride) mod d in
      flat_map (fun dstX =>
        if dstX =? srcX then []
        else [Conn src (Z.of_nat src + (Z.of_nat dstX - Z.of_nat srcX) * Z.of_nat stride)%Z
                   (hc_port all i dstX) (hc_port all i srcX)]) (seq 0 d)
      ++ hc_outports_loop all (S i) (stride * d) r src
  end.
Definition hc_outports (dims : list nat) (src : nat) : list conn := hc_outports_loop dims 0 1 dims src.

(** Hypercube::endpointsConnectedToInjectionSwitch, hypercube.cc:66-81. *)
Definition hc_endpoints (dims : list nat) (conc sw : nat) : list (nat * nat) :=
  map (fun i => (sw * conc + i, list_sum dims + i)) (seq 0 conc).

(** Hypercube::minimalDistance, hypercube.cc:103-120. *)
Fixpoint hc_dist_loop (div : nat) (dims : list nat) (src dst : nat) : nat :=
  match dims with
  | [] => 0
  | d :: r => (if (src / div) mod d =? (dst / div) mod d then 0 else 1) + hc_dist_loop (div * d) r src dst
  end.
Definition hc_distance (dims : list nat) (src dst : nat) : nat := hc_dist_loop 1 dims src dst.

(** Hypercube::minimalRouteToSwitch, hypercube.cc:83-101: the port; [None] when no dimension
    differs (the header is then left as it was). *)
Fixpoint hc_route_loop (all : list nat) (i div : nat) (dims : list nat) (src dst : nat) : option nat :=
  match dims with
  | [] => None
  | d :: r =>
      if negb ((src / div) mod d =? (dst / div) mod d) then Some (hc_port all i ((dst / div) mod d))
      else hc_route_loop all (S i) (div * d) r src dst
  end.
Definition hc_minimal_route (dims : list nat) (src dst : nat) : option nat := hc_route_loop dims 0 1 dims src dst.

(** HypercubeMinimalRouter::route, hypercube_routing.cc:85-96. *)
Definition hc_route (dims : list nat) (conc nid my : nat) (h : unit) : outcome unit :=
  if nid / conc =? my then Eject (nid mod conc + list_sum dims)
  else match hc_minimal_route dims my (nid / conc) with
       | Some p => Forward p 0 tt
       | None => Abort
       end.

(** HypercubeParRouter header, hypercube_routing.cc:104-112.  The bit-field widths are modelled
    by the truncations below: nhops 3 bits, dstX/Y/Z 6 bits, ejPort 16 bits, dest_switch 24 bits;
    deadlock_vc is 4 bits (packet.h:65-69) and edge_port 16 bits. *)
Inductive pstage := PInitial | PMinimal | PValiant | PFinal.
Record phdr := PHdr { p_stage : pstage; p_nhops : nat; p_dx : nat; p_dy : nat; p_dz : nat;
                      p_ej : nat; p_dest : nat }.
Definition phdr0 : phdr := PHdr PInitial 0 0 0 0 0 0.
Definition bits (n x : nat) : nat := x mod 2 ^ n.

(** The tail of route, hypercube_routing.cc:264-265: send on [port]. *)
Definition par_send (port : nat) (h : phdr) : outcome phdr :=
  Forward port (p_nhops h)
    (PHdr (p_stage h) (bits 3 (p_nhops h + 1)) (p_dx h) (p_dy h) (p_dz h) (p_ej h) (p_dest h)).

(** final_stage, hypercube_routing.cc:247-262. *)
Definition par_final (x y mx my_ mz : nat) (h : phdr) : outcome phdr :=
  if negb (p_dx h =? mx) then par_send (p_dx h) h
  else if negb (p_dy h =? my_) then par_send (p_dy h + x) h
  else if negb (p_dz h =? mz) then par_send (p_dz h + x + y) h
  else Eject (p_ej h).

(** What the switch decides in minimal_stage: whether the minimal queue is no longer than twice the
    other ([d_min]), and the random coordinates drawn.  Queue lengths and random numbers are
    arbitrary inputs here; x_randomNumber and its siblings (hypercube_routing.cc:147-177) return a
    coordinate of the dimension different from the switch's own. *)
Record decision := Decide { d_min : bool; d_x : nat; d_y : nat; d_z : nat }.

(** minimal_stage, hypercube_routing.cc:196-230. *)
Definition par_minimal (x y z my mx my_ mz : nat) (dec : decision) (h : phdr) : outcome phdr :=
  let cx := if mx =? p_dx h then mx else d_x dec in
  let cy := if my_ =? p_dy h then my_ else d_y dec in
  let cz := if mz =? p_dz h then mz else d_z dec in
  let inter := switch_addr [x; y; z] [cx; cy; cz] in
  let go mp vp :=
    if d_min dec then par_send mp h
    else par_send vp (PHdr PValiant (p_nhops h) (p_dx h) (p_dy h) (p_dz h) (p_ej h) (bits 24 inter)) in
  if negb (mx =? p_dx h) then go (p_dx h) cx
  else if negb (my_ =? p_dy h) then go (p_dy h + x) (cy + x)
  else if negb (mz =? p_dz h) then go (p_dz h + x + y) (cz + x + y)
  else Eject (p_ej h).

(** HypercubeParRouter::route, hypercube_routing.cc:179-267, with its fall-through cases. *)
Definition par_route (x y z conc nid : nat) (dec : nat -> phdr -> decision) (my : nat) (h : phdr)
  : outcome phdr :=
  let c := switch_coords [x; y; z] my in
  let mx := nth 0 c 0 in let my_ := nth 1 c 0 in let mz := nth 2 c 0 in
  match p_stage h with
  | PInitial =>
      let ej := nid / conc in
      let e := switch_coords [x; y; z] ej in
      let h1 := PHdr PMinimal (p_nhops h) (bits 6 (nth 0 e 0)) (bits 6 (nth 1 e 0)) (bits 6 (nth 2 e 0))
                     (bits 16 (nid mod conc + (x + y + z))) (p_dest h) in
      if ej =? my then Eject (p_ej h1) else par_minimal x y z my mx my_ mz (dec my h1) h1
  | PMinimal => par_minimal x y z my mx my_ mz (dec my h) h
  | PValiant =>
      if negb (my =? p_dest h) then
        let c := switch_coords [x; y; z] (p_dest h) in
        if negb (nth 0 c 0 =? mx) then par_send (nth 0 c 0) h
        else if negb (nth 1 c 0 =? my_) then par_send (nth 1 c 0 + x) h
        else par_send (nth 2 c 0 + x + y) h
      else par_final x y mx my_ mz
             (PHdr PFinal (p_nhops h) (p_dx h) (p_dy h) (p_dz h) (p_ej h) (p_dest h))
  | PFinal => par_final x y mx my_ mz h
  end.

(** FullyConnected::connectedOutports, fully_connected.cc:73-88. *)
Definition fc_outports (n src : nat) : list conn :=
  flat_map (fun i => if i =? src then [] else [Conn src (Z.of_nat i) i src]) (seq 0 n).
(** FullyConnected::endpointsConnectedToInjectionSwitch, fully_connected.cc:60-71. *)
Definition fc_endpoints (n conc sw : nat) : list (nat * nat) :=
  map (fun i => (sw * conc + i, n + i)) (seq 0 conc).
(** FullyConnectedMinimalRouter::route, router.cc:146-154. *)
Definition fc_route (n conc nid my : nat) (h : unit) : outcome unit :=
  if nid / conc =? my then Eject (n + nid mod conc) else Forward (nid / conc) 0 tt.
(** Star: one switch (star.h:106-108); Star::endpointsConnectedToInjectionSwitch, star.cc:62-73;
    StarMinimalRouter::route, router.cc:183-185. *)
Definition star_endpoints (conc sw : nat) : list (nat * nat) :=
  map (fun i => (sw * conc + i, i)) (seq 0 conc).
Definition star_route (nid my : nat) (h : unit) : outcome unit := Eject nid.
