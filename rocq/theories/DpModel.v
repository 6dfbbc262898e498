(** Dragonfly+: sstmac/hardware/topology/dragonfly_plus.{h,cc} and
    sstmac/hardware/router/dragonfly_plus_routing.cc (the minimal and the PAR router).  Each group is a
    two-level tree: [a] leaf switches (row 0, with the nodes) and [a] upper switches (row 1, with the
    global cables).  The global wiring is that of the dragonfly (DfModel).
    Simplified: ints are unbounded; edge_port (16 bits) is not truncated. *)
From Coq Require Import List ZArith Arith Bool.
From Verif Require Import TorusModel NetModel DfModel.
Import ListNotations.

(** num_leaf_switches_, numSwitches (dragonfly_plus.cc:115, dragonfly_plus.h:168-174). *)
Definition dp_leaves (D : df) : nat := d_a D * d_g D.
Definition dp_switches (D : df) : nat := 2 * (d_a D * d_g D).
(** computeRow, computeA, computeG, getUid (dragonfly_plus.h:146-166). *)
Definition dp_row (D : df) (sid : nat) : nat := sid / dp_leaves D.
Definition dp_A (D : df) (sid : nat) : nat := sid mod d_a D.
Definition dp_G (D : df) (sid : nat) : nat := (sid mod dp_leaves D) / d_a D.
Definition dp_uid (D : df) (row x g : nat) : nat := row * dp_leaves D + g * d_a D + x.

(** The check of the topology constructor, dragonfly_plus.cc:111-113; with one group the remainder is
    by zero (the program crashes). *)
Definition dp_top_ok (D : df) : bool := (2 <=? d_g D) && (d_h D mod (d_g D - 1) =? 0).

(** DragonflyPlus::connectedOutports, dragonfly_plus.cc:174-226. *)
Definition dp_conns (D : df) (src : nat) : list conn :=
  let myA := dp_A D src in let myG := dp_G D src in
  if dp_row D src =? 0 then map (fun x => Conn src (Z.of_nat (dp_uid D 1 x myG)) x myA) (seq 0 (d_a D))
  else map (fun x => Conn src (Z.of_nat (dp_uid D 0 x myG)) x myA) (seq 0 (d_a D))
       ++ map (fun '(p, rel) => Conn src (Z.of_nat (rel + dp_leaves D)) (p + d_a D)
                 (d_a D + d_in D myA myG p (rel mod d_a D) (rel / d_a D)))
            (indexed (d_conn D myA myG)).

(** endpointsConnectedToInjectionSwitch, dragonfly_plus.cc:120-137. *)
Definition dp_endpoints (D : df) (conc sw : nat) : list (nat * nat) :=
  if 0 <? dp_row D sw then [] else map (fun i => (sw * conc + i, i + d_a D)) (seq 0 conc).
(** maxNumPorts, dragonfly_plus.h:136-138. *)
Definition dp_max_ports (D : df) (conc : nat) : nat := Nat.max (d_a D + d_h D) (d_a D + conc).

(** minimalDistance, dragonfly_plus.cc:139-153; numHopsToNode, dragonfly_plus.h:182-184. *)
Definition dp_distance (D : df) (src dst : nat) : nat :=
  if dp_G D src =? dp_G D dst then (if dp_row D src =? dp_row D dst then 2 else 1)
  else 1 + (1 - dp_row D src) + (1 - dp_row D dst).
Definition dp_node_hops (D : df) (conc src dst : nat) : nat := dp_distance D (src / conc) (dst / conc).

(** covering_ (dragonfly_plus_routing.cc:80) and the checks of the router constructor (80-115) on the
    switch [my]; true when it does not abort. *)
Definition dp_cov (D : df) : nat := d_h D / (d_g D - 1).
Definition dp_check (D : df) (my : nat) : bool :=
  negb (dp_cov D =? 0) && (d_h D mod (d_g D - 1) =? 0) &&
  forallb (fun '(p, dst) =>
      let e := p / dp_cov D in
      (if dp_G D my <=? e then e + 1 else e) =? dp_G D dst)
    (indexed (d_conn D (dp_A D my) (dp_G D my))).

(** grpOffset * covering_ + rotater + a, dragonfly_plus_routing.cc:150-157 (also 234-235, 241-242). *)
Definition dp_group_port (D : df) (myG dstG rot : nat) : nat :=
  (if myG <? dstG then dstG - 1 else dstG) * dp_cov D + rot + d_a D.

(** DragonflyPlusAlltoallMinimalRouter::route, dragonfly_plus_routing.cc:128-161.  [ks my] is the
    rotater value when the packet is routed at [my], or the destination switch with static routing;
    the code keeps the one below and reduces the other by a (up) or covering_ (global). *)
Definition dp_route (D : df) (conc : nat) (ks : nat -> nat) (nid my : nat) (h : unit) : outcome unit :=
  let ej := nid / conc in
  if ej =? my then Eject (nid mod conc + d_a D)
  else
    let dstG := dp_G D ej in
    if dp_row D my =? 0 then Forward (ks my mod d_a D) 0 tt
    else if dp_G D my =? dstG then Forward (ej mod d_a D) 0 tt
    else Forward (dp_group_port D (dp_G D my) dstG (ks my mod dp_cov D)) 0 tt.

(** DragonflyPlusParRouter::route, dragonfly_plus_routing.cc:211-283.  The header: stage_number and
    the deadlock_vc left by the previous switch.  [dec my] is what the switch finds: whether the
    queue lengths favour the detour, and the random number that ended the loop of lines 251-257
    (below covering_ * g). *)
Inductive dpstage := DpInitial | DpValiant | DpFinal.
Definition dp_detour (D : df) (myG v : nat) : nat :=
  (if myG <? v / dp_cov D then v - dp_cov D else v) + d_a D.
Definition dp_par (D : df) (conc : nat) (ks : nat -> nat) (dec : nat -> bool * nat) (nid my : nat)
  (h : dpstage * nat) : outcome (dpstage * nat) :=
  let '(st, vc) := h in
  let ej := nid / conc in
  if dp_row D my =? 0 then
    if ej =? my then Eject (nid mod conc + d_a D) else Forward (ks my mod d_a D) 0 (st, 0)
  else
    let dstG := dp_G D ej in
    if dp_G D my =? dstG then Forward (ej mod d_a D) vc (st, vc)
    else
      let minimal := dp_group_port D (dp_G D my) dstG (ks my mod dp_cov D) in
      match st with
      | DpValiant => Forward minimal 1 (DpValiant, 1)
      | _ => if (2 <? d_g D) && fst (dec my)
             then Forward (dp_detour D (dp_G D my) (snd (dec my))) 0 (DpValiant, 0)
             else Forward minimal 0 (DpFinal, 0)
      end.

(** The numbers the loop of lines 251-257 can stop at. *)
Definition dp_dec_ok (D : df) (ej : nat) (dec : nat -> bool * nat) : Prop :=
  forall my, let v := snd (dec my) in 2 < d_g D -> dp_G D my <> dp_G D ej -> my < dp_switches D ->
    v < dp_cov D * d_g D /\ v / dp_cov D <> dp_G D my /\ v / dp_cov D <> dp_G D ej.
