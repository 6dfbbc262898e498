(** The cascade topology and its minimal router:
    sstmac/hardware/topology/cascade.cc, cascade.h, sstmac/hardware/router/cascade_routing.cc.
    Simplified: ints are unbounded; the 2-bit count of group hops is not truncated (a packet
    that makes at most one group hop keeps it at 0 or 1). *)
From Coq Require Import List ZArith Arith Bool.
From Verif Require Import TorusModel NetModel.
Import ListNotations.

(** x_, y_, g_ and group_con_, cascade.h:212-215; concentration. *)
Record shape : Type := Shape { s_x : nat; s_y : nat; s_g : nat; s_con : nat }.

(** The constructor, cascade.cc:72-88: group_connections is cut to g_ - 1. *)
Definition cas_shape (x y g requested : nat) : shape :=
  Shape x y g (if g <=? requested then g - 1 else requested).

(** computeX, computeY, computeG, get_uid, cascade.h:141-167. *)
Definition cx (t : shape) (s : nat) : nat := s mod s_x t.
Definition cy (t : shape) (s : nat) : nat := (s / s_x t) mod s_y t.
Definition cg (t : shape) (s : nat) : nat := s / (s_x t * s_y t).
Definition cuid (t : shape) (x y g : nat) : nat := g * (s_x t * s_y t) + y * s_x t + x.
Definition cas_switches (t : shape) : nat := s_x t * s_y t * s_g t.

(** x_port, y_port, g_port, cascade.h:145-155. *)
Definition x_port (t : shape) (x : nat) : nat := x.
Definition y_port (t : shape) (y : nat) : nat := s_x t + y.
Definition g_port (t : shape) (g : nat) : nat := s_x t + s_y t + g.

(** xygDirToGroup, cascade.cc:305-321, with mod, 67-70. *)
Definition dir_to_group (t : shape) (x y g dir : nat) : nat :=
  let a := x * s_y t + y in
  let half := s_con t / 2 in
  if half <=? dir
  then Z.to_nat ((Z.of_nat g - Z.of_nat (a * half) - Z.of_nat (dir - half)) mod Z.of_nat (s_g t))
  else (g + a * half + dir) mod s_g t.

(** connectedOutports, cascade.cc:239-290. *)
Definition cas_outports (t : shape) (src : nat) : list conn :=
  let mx := cx t src in let my := cy t src in let mg := cg t src in
  flat_map (fun x => if x =? mx then []
    else [Conn src (Z.of_nat (cuid t x my mg)) (x_port t x) (x_port t mx)]) (seq 0 (s_x t)) ++
  flat_map (fun y => if y =? my then []
    else [Conn src (Z.of_nat (cuid t mx y mg)) (y_port t y) (y_port t my)]) (seq 0 (s_y t)) ++
  flat_map (fun d => let dg := dir_to_group t mx my mg d in
    if dg =? mg then []
    else [Conn src (Z.of_nat (cuid t mx my dg)) (g_port t dg) (g_port t mg)]) (seq 0 (s_con t)).

(** xy_connected_to_group, cascade.cc:103-116: the loop, with n turns left and theg as after
    the reduction modulo g_. *)
Fixpoint xy_loop (t : shape) (stride n theg dst : nat) : bool :=
  match n with
  | 0 => false
  | S k => let th := theg mod s_g t in
           if th =? dst then true else xy_loop t stride k (th + stride) dst
  end.
Definition xy_connected (t : shape) (x y g dst : nat) : bool :=
  let stride := Nat.max 1 (s_g t / s_con t) in
  xy_loop t stride (s_con t) (g + (x + y * s_x t) mod s_g t) dst.

(** find_y_path_to_group and find_x_path_to_group, cascade.cc:118-146; start is the random
    number drawn. *)
Definition find_y (t : shape) (start x g dst : nat) : option nat :=
  find (fun y => xy_connected t x y g dst) (map (fun yy => (start + yy) mod s_y t) (seq 0 (s_y t))).
Definition find_x (t : shape) (start y g dst : nat) : option nat :=
  find (fun x => xy_connected t x y g dst) (map (fun xx => (start + xx) mod s_x t) (seq 0 (s_x t))).

(** The last loop of find_path_to_group, cascade.cc:172-178; ys are the numbers drawn. *)
Fixpoint find_any (t : shape) (ys : nat -> nat) (g dst : nat) (xs : list nat) : option nat :=
  match xs with
  | [] => None
  | x :: r => match find_y t (ys (S x)) x g dst with
              | Some y => Some (y_port t y)
              | None => find_any t ys g dst r
              end
  end.

(** find_path_to_group, cascade.cc:148-183: the port; None is the exception at the end.
    The random numbers are given: xs, and ys n for the n-th search of a column. *)
Definition path_to_group (t : shape) (xs : nat) (ys : nat -> nat) (x y g dst : nat) : option nat :=
  if xy_connected t x y g dst then Some (g_port t dst)
  else match find_x t xs y g dst with
       | Some x' => Some (x_port t x')
       | None => match find_y t (ys 0) x g dst with
                 | Some y' => Some (y_port t y')
                 | None => find_any t ys g dst (seq 0 (s_x t))
                 end
       end.

(** minimalRouteToSwitch, cascade.cc:186-211. *)
Definition cas_minimal_route (t : shape) (xs : nat) (ys : nat -> nat) (src dst : nat) : option nat :=
  if negb (cg t src =? cg t dst) then path_to_group t xs ys (cx t src) (cy t src) (cg t src) (cg t dst)
  else if negb (cx t src =? cx t dst) then Some (x_port t (cx t dst))
  else if negb (cy t src =? cy t dst) then Some (y_port t (cy t dst))
  else None.

(** minimalDistance, cascade.cc:213-237. *)
Definition cas_distance (t : shape) (src dst : nat) : nat :=
  if cg t src =? cg t dst
  then (if cx t src =? cx t dst then 0 else 1) + (if cy t src =? cy t dst then 0 else 1)
  else 5.

(** CascadeMinimalRouter::route, cascade_routing.cc:93-108; isGlobalPort, cascade.h:107-109.
    The header is the count of group hops; xs and ys give the random numbers drawn at a switch. *)
Definition cas_route (t : shape) (conc nid : nat) (xs : nat -> nat) (ys : nat -> nat -> nat)
    (my : nat) (hops : nat) : outcome nat :=
  if nid / conc =? my then Eject (nid mod conc + (s_x t + s_y t + s_g t))
  else match cas_minimal_route t (xs my) (ys my) my (nid / conc) with
       | Some p => Forward p hops (if s_x t + s_y t <=? p then S hops else hops)
       | None => Abort
       end.
