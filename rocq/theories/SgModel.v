(** The scatter router of the dragonfly
    (sstmac/hardware/router/dragonfly_routing.cc:569-730), over the topology of
    [DfModel].

    Simplifications: integers are unbounded; the rotater of a destination is
    some port of its set, which one is left open. *)
From Coq Require Import List ZArith Arith Bool.
From Verif Require Import TorusModel NetModel DfModel.
Import ListNotations.

(** followPathHelper and followPath, dragonfly_routing.cc:636-672: the entries
    (h, sid, port) put into destination_table_.  [f] is 3 - num_hops, which is
    the condition in line 652; [port] is None for -1. *)
Fixpoint follow (D : df) (my f sid hops gh : nat) (port : option nat) : list (nat * nat * nat) :=
  match f with
  | 0 => []
  | S f' =>
      let a := df_A D sid in
      let g := df_G D sid in
      let helper next p gh' :=
        (if (p <? d_a D) || negb (df_G D next =? df_G D my)
         then map (fun h => (h, next, p)) (seq (hops + 1) (3 - hops)) else [])
        ++ follow D my f' next (hops + 1) gh' (Some p) in
      (if gh =? 0
       then flat_map (fun '(c, next) =>
              helper next (match port with None => c + d_a D | Some p => p end) (gh + 1))
            (indexed (d_conn D a g))
       else [])
      ++ flat_map (fun aa =>
           if aa =? a then []
           else helper (df_uid D aa g) (match port with None => aa | Some p => p end) gh)
         (seq 0 (d_a D))
  end.

(** The constructor, dragonfly_routing.cc:606-634: destination_table_[h][dst]
    of the router of switch [my]. *)
Definition sg_ports (D : df) (my h dst : nat) : list nat :=
  flat_map (fun '(h', sid, p) => if (h' =? h) && (sid =? dst) then [p] else [])
    (follow D my 3 my 0 0 None).

(** route, dragonfly_routing.cc:696-713: the hops a packet may make, *)
Definition sg_max (D : df) (src dst : nat) : nat := if df_G D src =? df_G D dst then 2 else 3.

(** and the ports it may take at [my] after [hops] hops. *)
Definition sg_route (D : df) (src dst my hops : nat) : list nat :=
  sg_ports D my (sg_max D src dst - hops) dst.

(** dragonfly_routing.cc:719: the virtual channel of that hop. *)
Definition sg_vc (hops : nat) : nat := hops.
