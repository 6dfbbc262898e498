(** Dragonfly: sstmac/hardware/topology/dragonfly.h/.cc and
    sstmac/hardware/router/dragonfly_routing.cc (minimal, valiant, UGAL, PAR and rotate routers).
    Simplified: ints are unbounded; edge_port (16 bits) and dest_switch (24 bits) are not truncated. *)
From Coq Require Import List ZArith Arith Bool.
From Verif Require Import TorusModel NetModel.
Import ListNotations.

(** A dragonfly with its InterGroupWiring (dragonfly.h:55-113): a routers per group, g groups, h
    global links per router; connectedRouters(a, g), inputGroupPort(srcA, srcG, srcH, dstA, dstG),
    connectedToGroup(srcG, dstG). *)
Record df := Df { d_a : nat; d_g : nat; d_h : nat;
  d_conn : nat -> nat -> list nat;
  d_in : nat -> nat -> nat -> nat -> nat -> nat;
  d_to : nat -> nat -> list (nat * nat) }.

(** computeA, computeG, getUid (dragonfly.h:191-202). *)
Definition df_A (D : df) (sid : nat) : nat := sid mod d_a D.
Definition df_G (D : df) (sid : nat) : nat := sid / d_a D.
Definition df_uid (D : df) (a g : nat) : nat := a + g * d_a D.
Definition df_switches (D : df) : nat := d_a D * d_g D.

Definition indexed {A} (l : list A) : list (nat * A) := combine (seq 0 (length l)) l.

(** Dragonfly::connectedOutports, dragonfly.cc:154-196. *)
Definition df_conns (D : df) (src : nat) : list conn :=
  let myA := df_A D src in let myG := df_G D src in
  flat_map (fun a => if a =? myA then [] else [Conn src (Z.of_nat (df_uid D a myG)) a myA]) (seq 0 (d_a D))
  ++ flat_map (fun '(h, dst) =>
       if df_G D dst =? myG then []
       else [Conn src (Z.of_nat dst) (h + d_a D)
                  (d_in D myA myG h (df_A D dst) (df_G D dst) + d_a D)])
     (indexed (d_conn D myA myG)).

(** endpointsConnectedToInjectionSwitch, dragonfly.cc:103-114. *)
Definition df_endpoints (D : df) (conc sw : nat) : list (nat * nat) :=
  map (fun i => (sw * conc + i, d_a D + d_h D + i)) (seq 0 conc).

(** Dragonfly::minimalDistance, dragonfly.cc:116-140.  [dc] is directConn, -1 when none. *)
Fixpoint df_dist_loop (D : df) (dst : nat) (dc : Z) (l : list nat) : nat :=
  match l with
  | [] => if (0 <? dc)%Z then 2 else 3
  | x :: r => if x =? dst then 1
              else df_dist_loop D dst (if df_G D x =? df_G D dst then Z.of_nat x else dc) r
  end.
Definition df_distance (D : df) (src dst : nat) : nat :=
  if df_G D src =? df_G D dst then 1
  else df_dist_loop D dst (-1) (d_conn D (df_A D src) (df_G D src)).

(** mod(a, b) of dragonfly.cc:57-60 and the modulo macro (55) on a difference. *)
Definition sub_mod (x y m : nat) : nat := Z.to_nat ((Z.of_nat x - Z.of_nat y) mod Z.of_nat m).

(** SingleLinkGroupWiring, dragonfly.cc:356-426 (h = 1).  connectedToGroup keeps the last match and
    the value-initialised pair (0,0) when there is none (the vector is fresh or holds stale data; a
    fresh one is modelled). *)
Definition single_conn (a g srcA srcG : nat) : list nat :=
  let delta := 1 + srcA / 2 in
  let dstG := if srcA mod 2 =? 0 then (srcG + delta) mod g else sub_mod srcG delta g in
  let dstA := if (a mod 2 =? 1) && (srcA =? a - 1) then srcA
              else if srcA mod 2 =? 0 then (srcA + 1) mod a else sub_mod srcA 1 a in
  [dstG * a + dstA].
Definition single_to (a g srcG dstG : nat) : list (nat * nat) :=
  [fold_left (fun acc x =>
      let delta := (Z.of_nat (1 + x / 2)%nat * (if (x mod 2 =? 0)%nat then 1 else -1))%Z in
      if (Z.rem (Z.of_nat srcG + delta + Z.of_nat g) (Z.of_nat g) =? Z.of_nat dstG)%Z then (x, 0) else acc)
     (seq 0 a) (0, 0)].
Definition single (a g : nat) : df :=
  Df a g 1 (single_conn a g) (fun _ _ _ _ _ => 0) (single_to a g).

(** CirculantGroupWiring, dragonfly.cc:428-503; the constructor aborts for odd h. *)
Definition circ_conn (a g h srcA srcG : nat) : list nat :=
  let half := h / 2 in
  flat_map (fun i =>
      let plusG := (srcG + srcA * half + i) mod g in
      let minusG := sub_mod srcG (srcA * half + i) g in
      (if plusG =? srcG then [] else [plusG * a + srcA]) ++
      (if minusG =? srcG then [] else [minusG * a + srcA])) (seq 1 half).
Definition circ_in (srcA srcG srcH dstA dstG : nat) : nat :=
  if srcH mod 2 =? 0 then srcH + 1 else srcH - 1.
Definition circ_to (a g h srcG dstG : nat) : list (nat * nat) :=
  flat_map (fun x =>
      match find (fun '(c, sid) => sid / a =? dstG) (indexed (circ_conn a g h x srcG)) with
      | Some (c, _) => [(x, c)]
      | None => []
      end) (seq 0 a).
Definition circulant (a g h : nat) : df := Df a g h (circ_conn a g h) circ_in (circ_to a g h).

(** AllToAllGroupWiring, dragonfly.cc:505-603; covering_ and stride_ from the constructor. *)
Definition covering (g h : nat) : nat := h / (g - 1).
Definition stride (a g h : nat) : nat := a / covering g h.
Definition ata_conn (a g h srcA srcG : nat) : list nat :=
  flat_map (fun x => if x =? srcG then []
     else map (fun c => x * a + (srcA + stride a g h * c) mod a) (seq 0 (covering g h))) (seq 0 g).
Definition ata_in (a g h srcA srcG srcH dstA dstG : nat) : nat :=
  let offset := sub_mod srcA dstA a / stride a g h in
  if srcG <? dstG then srcG * covering g h + offset else (srcG - 1) * covering g h + offset.
Definition ata_to (a g h srcG dstG : nat) : list (nat * nat) :=
  flat_map (fun x => map (fun c => (x, dstG * covering g h + c)) (seq 0 (covering g h))) (seq 0 a).
Definition alltoall (a g h : nat) : df := Df a g h (ata_conn a g h) (ata_in a g h) (ata_to a g h).
(** The parameters the AllToAll constructor accepts, dragonfly.cc:515-532. *)
Definition alltoall_ok (a g h : nat) : bool :=
  negb (covering g h =? 0) && (h mod (g - 1) =? 0) && (a mod covering g h =? 0).

(** DragonflyMinimalRouter constructor, dragonfly_routing.cc:97-136: group_ports_[dstG] of switch my. *)
Definition direct_ports (D : df) (A G dstG : nat) : list nat :=
  map (fun '(c, _) => c + d_a D) (filter (fun '(_, dst) => df_G D dst =? dstG) (indexed (d_conn D A G))).
Definition group_ports (D : df) (my dstG : nat) : list nat :=
  match direct_ports D (df_A D my) (df_G D my) dstG with
  | [] => map fst (d_to D (df_G D my) dstG)
  | l => l
  end.

(** The port routeToSwitch chooses (dragonfly_routing.cc:159-183); [k] is the rotater value or, for
    static routing, the destination switch.  Both are reduced modulo the table size by the code. *)
Definition to_switch (D : df) (my k dst : nat) : nat :=
  if df_G D dst =? df_G D my then df_A D dst
  else let ports := group_ports D my (df_G D dst) in nth (k mod length ports) ports 0.

(** DragonflyMinimalRouter::route, dragonfly_routing.cc:146-183; the header is num_group_hops, two
    bits.  [ks my] is the rotater value when the packet is routed at [my]. *)
Definition df_route (D : df) (conc : nat) (ks : nat -> nat) (nid my : nat) (ng : nat) : outcome nat :=
  let ej := nid / conc in
  if ej =? my then Eject (d_a D + d_h D + nid mod conc)
  else
    let port := to_switch D my (ks my) ej in
    if df_G D ej =? df_G D my then Forward port ng ng
    else if d_a D + d_h D <=? port then Abort
    else Forward port ng (if d_a D <=? port then (ng + 1) mod 4 else ng).

(** DragonflyRotateRouter::route, dragonfly_routing.cc:742-805: any valid global port first.
    Header: (num_group_hops, num_hops); [ks] also positions the rotater of valid_ports_. *)
Definition rotate_ports (D : df) (my : nat) : list nat :=
  map (fun '(c, _) => c + d_a D)
      (filter (fun '(_, dst) => negb (df_G D dst =? df_G D my)) (indexed (d_conn D (df_A D my) (df_G D my)))).
Definition rotate_route (D : df) (conc : nat) (ks : nat -> nat) (nid my : nat) (h : nat * nat) : outcome (nat * nat) :=
  let '(ng, n) := h in
  let ej := nid / conc in
  if ej =? my then Eject (d_a D + d_h D + nid mod conc)
  else if 3 <? n then Abort
  else if 1 <=? ng then
    let port := to_switch D my (ks my) ej in
    if df_G D ej =? df_G D my then Forward port n (ng, (n + 1) mod 16)
    else if d_a D + d_h D <=? port then Abort
    else Forward port n ((if d_a D <=? port then (ng + 1) mod 4 else ng), (n + 1) mod 16)
  else if df_G D ej =? df_G D my then Forward (df_A D ej) n (ng, (n + 1) mod 16)
  else let v := rotate_ports D my in
       Forward (nth (ks my mod length v) v 0) n ((ng + 1) mod 4, (n + 1) mod 16).

(** DragonflyValiantRouter constructor, dragonfly_routing.cc:206-263: group_gateways_[i] of switch
    [my].  [None] where the constructor aborts. *)
Definition own_gateways (D : df) (my i : nat) : list (nat * nat) :=
  flat_map (fun a => if a =? df_A D my then []
      else map (fun sid => (a, sid)) (filter (fun sid => df_G D sid =? i) (d_conn D a (df_G D my))))
    (seq 0 (d_a D)).
(** The router of [inter] with a connection to group [i], 239-251: routers are probed in the order
    (a + my_a) % a, the last success wins, and the id is formed with [a], not with the probed index. *)
Definition far_dest (D : df) (my i inter : nat) : option nat :=
  fold_left (fun acc a =>
      if existsb (fun sid => df_G D sid =? i) (d_conn D ((a + df_A D my) mod d_a D) inter)
      then Some (df_uid D a inter) else acc) (seq 0 (d_a D)) None.
Definition far_gateways (D : df) (my i : nat) : option (list (nat * nat)) :=
  fold_right (fun inter acc =>
      if (inter =? df_G D my) || (inter =? i) then acc
      else match far_dest D my i inter, acc with
           | Some dest, Some l =>
               let ports := group_ports D my inter in
               Some ((nth (df_A D my mod length ports) ports 0, dest) :: l)
           | _, _ => None
           end) (Some []) (seq 0 (d_g D)).
Definition gateways (D : df) (my i : nat) : option (list (nat * nat)) :=
  match own_gateways D my i with [] => far_gateways D my i | l => Some l end.

(** What a switch decides for a packet: whether UGAL leaves the minimal path, the random group and
    router, and the positions of the rotaters. *)
Record vdec := VDec { v_go : bool; v_newg : nat; v_newa : nat; v_gate : nat; v_k : nat }.
Inductive vstage := SInit | SVal | SFinal | SMin.
Record dhdr := DHdr { s_stage : vstage; s_dest : nat; s_hops : nat }.

(** The tail of the valiant, UGAL and PAR route functions: deadlock_vc = num_hops++ (4 bits). *)
Definition v_send (port : nat) (st : vstage) (dest n : nat) : outcome dhdr :=
  Forward port n (DHdr st dest ((n + 1) mod 16)).
(** checkValiantInterGroup / IntraGroup (273-302) and the valiant branches of checkUGAL* (386-470). *)
Definition go_inter (D : df) (my : nat) (d : vdec) (n : nat) : outcome dhdr :=
  match gateways D my (v_newg d) with
  | Some l => let '(port, dest) := nth (v_gate d mod length l) l (0, 0) in v_send port SVal dest n
  | None => Abort
  end.
Definition go_intra (D : df) (my : nat) (d : vdec) (n : nat) : outcome dhdr :=
  v_send (v_newa d) SVal (df_uid D (v_newa d) (df_G D my)) n.

(** valiant_stage and final_stage, common to the three routers (333-346, 478-494, 548-560).
    routeToSwitch aborts on a port beyond the global ones. *)
Definition v_toward (D : df) (my : nat) (d : vdec) (target : nat) (st : vstage) (dest n : nat) : outcome dhdr :=
  let port := to_switch D my (v_k d) target in
  if negb (df_G D target =? df_G D my) && (d_a D + d_h D <=? port) then Abort else v_send port st dest n.
Definition v_continue (D : df) (my ej : nat) (d : vdec) (h : dhdr) : outcome dhdr :=
  match s_stage h with
  | SVal => if my =? s_dest h then v_toward D my d ej SFinal ej (s_hops h)
            else v_toward D my d (s_dest h) SVal (s_dest h) (s_hops h)
  | SMin => v_toward D my d ej SMin (s_dest h) (s_hops h)
  | _ => v_toward D my d ej SFinal ej (s_hops h)
  end.

(** DragonflyValiantRouter::route, dragonfly_routing.cc:304-339. *)
Definition val_route (D : df) (conc : nat) (dec : nat -> dhdr -> vdec) (nid my : nat) (h : dhdr) : outcome dhdr :=
  let ej := nid / conc in
  if ej =? my then Eject (d_a D + d_h D + nid mod conc)
  else match s_stage h with
       | SInit => if df_G D ej =? df_G D my then go_intra D my (dec my h) (s_hops h)
                  else go_inter D my (dec my h) (s_hops h)
       | _ => v_continue D my ej (dec my h) h
       end.

(** The minimal branches of checkUGALInterGroup / IntraGroup (386-470); [st] is the stage kept. *)
Definition go_minimal (D : df) (my ej : nat) (d : vdec) (st : vstage) (n : nat) : outcome dhdr :=
  v_send (to_switch D my (v_k d) ej) st ej n.
Definition ugal_first (D : df) (my ej : nat) (d : vdec) (st : vstage) (n : nat) : outcome dhdr :=
  if df_G D ej =? df_G D my then if v_go d then go_intra D my d n else go_minimal D my ej d st n
  else if (2 <? d_g D) && v_go d then go_inter D my d n else go_minimal D my ej d st n.
(** DragonflyUGALRouter::route, dragonfly_routing.cc:436-499, with its too-many-hops abort. *)
Definition ugal_route (D : df) (conc : nat) (dec : nat -> dhdr -> vdec) (nid my : nat) (h : dhdr) : outcome dhdr :=
  let ej := nid / conc in
  if ej =? my then Eject (d_a D + d_h D + nid mod conc)
  else if 6 <=? s_hops h then Abort
  else match s_stage h with
       | SInit => ugal_first D my ej (dec my h) SMin (s_hops h)
       | _ => v_continue D my ej (dec my h) h
       end.
(** DragonflyPARRouter::route, dragonfly_routing.cc:527-565: the minimal branch stays in the initial
    stage; no hop check. *)
Definition dpar_route (D : df) (conc : nat) (dec : nat -> dhdr -> vdec) (nid my : nat) (h : dhdr) : outcome dhdr :=
  let ej := nid / conc in
  if ej =? my then Eject (d_a D + d_h D + nid mod conc)
  else match s_stage h with
       | SInit => ugal_first D my ej (dec my h) SInit (s_hops h)
       | _ => v_continue D my ej (dec my h) h
       end.
