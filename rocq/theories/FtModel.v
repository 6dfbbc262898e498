(** Three-level fat tree: sstmac/hardware/topology/fat_tree.h/.cc and
    sstmac/hardware/router/fat_tree_router.cc.
    Simplified: ints are unbounded; edge_port is not truncated to 16 bits. *)
From Coq Require Import List ZArith Arith Bool.
From Verif Require Import TorusModel NetModel.
Import ListNotations.

(** The FatTree parameters, fat_tree.h:238-250: leaf_switches_per_subtree_, agg_switches_per_subtree_,
    num_agg_subtrees_, num_core_switches_, up_ports_per_leaf_switch_, down_ports_per_agg_switch_,
    up_ports_per_agg_switch_, down_ports_per_core_switch_, max_nodes_. *)
Record ft := Ft { fL : nat; fA : nat; fT : nat; fC : nat; fU : nat; fD : nat; fUA : nat; fDC : nat;
                  f_max : nat }.
(** num_leaf_switches_, num_agg_switches_ (fat_tree.cc:90-91), numSwitches (fat_tree.h:101-103). *)
Definition num_leaf (p : ft) : nat := fL p * fT p.
Definition num_agg (p : ft) : nat := fA p * fT p.
Definition ft_switches (p : ft) : nat := num_leaf p + num_agg p + fC p.

(** FatTree::checkInput, fat_tree.cc:343-410: the parameters that do not raise an error. *)
Definition check_input (p : ft) : bool :=
  negb (fDC p <? fT p) && negb (fD p <? fL p) &&
  (fDC p mod fT p =? 0) && (fD p mod fL p =? 0) &&
  negb (fUA p * fA p <? fC p) && negb (fU p <? fA p) && (fU p mod fA p =? 0) &&
  (fC p * fDC p =? num_agg p * fUA p) && (fA p * fD p =? fL p * fU p).

(** FatTree::connectedOutports, fat_tree.cc:216-341, one clause per row.  The aborts on a bad
    partner port are [ft_wiring_aborts]. *)
Definition leaf_conns (p : ft) (src : nat) : list conn :=
  map (fun u => let g := src mod fL p + u * fL p in
         Conn src (Z.of_nat (num_leaf p + src / fL p * fA p + g / fD p)) u (g mod fD p))
      (seq 0 (fU p)).
Definition agg_up_conns (p : ft) (src : nat) : list conn :=
  let t := (src - num_leaf p) / fA p in let a := (src - num_leaf p) mod fA p in
  map (fun u => let g := u * num_agg p + a * fT p + t in
         Conn src (Z.of_nat (num_leaf p + num_agg p + g / fDC p)) (fD p + u) (g mod fDC p))
      (seq 0 (fUA p)).
Definition agg_leaf_port (p : ft) (a d : nat) : nat := a + d / fL p * fL p.
Definition agg_down_conns (p : ft) (src : nat) : list conn :=
  let t := (src - num_leaf p) / fA p in let a := (src - num_leaf p) mod fA p in
  map (fun d => Conn src (Z.of_nat (t * fL p + d mod fL p)) d (agg_leaf_port p a d))
      (seq 0 (fD p)).
Definition core_conns (p : ft) (src : nat) : list conn :=
  map (fun d => let g := (src - num_agg p - num_leaf p) * fDC p + d in
         Conn src (Z.of_nat (num_leaf p + g mod fT p * fA p + g mod num_agg p / fT p))
              d (g / num_agg p + fD p))
      (seq 0 (fDC p)).
Definition ft_conns (p : ft) (src : nat) : list conn :=
  if src <? num_leaf p then leaf_conns p src
  else if src <? num_leaf p + num_agg p then agg_up_conns p src ++ agg_down_conns p src
  else core_conns p src.
(** fat_tree.cc:310-313; the other aborts (257, 287, 335) cannot fire. *)
Definition ft_wiring_aborts (p : ft) : bool :=
  existsb (fun a => existsb (fun d => fU p <=? agg_leaf_port p a d) (seq 0 (fD p))) (seq 0 (fA p)).

(** FatTree::endpointsConnectedToInjectionSwitch, fat_tree.cc:423-442. *)
Definition ft_endpoints (p : ft) (conc sw : nat) : list (nat * nat) :=
  if sw <? num_leaf p then
    flat_map (fun i => if sw * conc + i <? f_max p then [(sw * conc + i, fU p + i)] else []) (seq 0 conc)
  else [].

(** FatTree::subtree for a leaf, fat_tree.h:122-125. *)
Definition leaf_subtree (p : ft) (sid : nat) : nat := sid / fL p.

(** FatTree::minimalDistance and aggSubtree, fat_tree.h:199-211, 233-235; C++ division truncates
    towards zero. *)
Definition agg_subtree (p : ft) (sid : nat) : Z :=
  Z.quot (Z.of_nat sid - Z.of_nat (num_leaf p)) (Z.of_nat (fA p)).
Definition ft_distance (p : ft) (src dst : nat) : nat :=
  if src =? dst then 0
  else if (agg_subtree p src =? agg_subtree p dst)%Z then 2 else 4.

(** FatTreeRouter constructor, fat_tree_router.cc:83-101: down_routes_. *)
Definition core_routes (p : ft) (my path : nat) : list nat :=
  map c_outport (filter (fun c =>
     (Z.quot (c_dst c - Z.of_nat (num_leaf p)) (Z.of_nat (fA p)) =? Z.of_nat path)%Z) (ft_conns p my)).
Definition agg_routes (p : ft) (my path : nat) : list nat :=
  map c_outport (filter (fun c =>
     (c_dst c <? Z.of_nat my)%Z && (Z.rem (c_dst c) (Z.of_nat (fL p)) =? Z.of_nat path)%Z) (ft_conns p my)).

(** up_next_ / down_rotaters_ after [k] uses: initialised to my_addr_ % n (fat_tree_router.cc:75,81,107)
    and advanced by (x + 1) % n (getUpPort, getDownPort, 157-173). *)
Fixpoint rotater (my n k : nat) : nat :=
  match k with 0 => my mod n | S k' => (rotater my n k' + 1) mod n end.

(** FatTreeRouter::route, fat_tree_router.cc:111-155.  [ku my] and [kd my path] are the numbers of
    packets that used the rotaters of switch [my] before this one. *)
Definition ft_route (p : ft) (conc : nat) (ku : nat -> nat) (kd : nat -> nat -> nat) (nid my : nat) (h : unit)
  : outcome unit :=
  let dst := nid / conc in
  if dst =? my then Eject (nid mod conc + fU p)
  else
    let tree := leaf_subtree p dst in
    if num_leaf p + num_agg p <=? my then
      let r := core_routes p my tree in
      Forward (nth (rotater my (length r) (kd my tree)) r 0) 0 tt
    else if num_leaf p <=? my then
      if tree =? (my - num_leaf p) / fA p then
        let r := agg_routes p my (dst mod fL p) in
        Forward (nth (rotater my (length r) (kd my (dst mod fL p))) r 0) 0 tt
      else Forward (fD p + rotater my (fUA p) (ku my)) 0 tt
    else Forward (rotater my (fU p) (ku my)) 0 tt.
