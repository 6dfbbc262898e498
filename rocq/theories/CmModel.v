(* MPI groups and communicators.
   Source: /repo/sumi-mpi/mpi_comm/mpi_group.cc, mpi_comm.cc,
   mpi_comm_factory.cc, mpi_comm_cart.cc, /repo/sumi-mpi/mpi_api_comm.cc,
   mpi_api_group.cc. *)
From Coq Require Import List Arith ZArith Bool.
Import ListNotations.

(* ---- groups ---- *)

(* mpi_group.h:101-104. The world group keeps only its size. *)
Inductive group := World (n : nat) | Tasks (l : list nat).

(* MpiGroup::at, mpi_group.cc:65-79; None is the throw of line 72 *)
Definition g_at (g : group) (r : nat) : option nat :=
  match g with
  | World _ => Some r
  | Tasks l => nth_error l r
  end.

Fixpoint index_of (t : nat) (l : list nat) : option nat :=
  match l with
  | [] => None
  | x :: k => if x =? t then Some 0 else option_map S (index_of t k)
  end.

(* MpiGroup::rankOfTask, mpi_group.cc:94-107; None is MPI_UNDEFINED *)
Definition g_rank (g : group) (t : nat) : option nat :=
  match g with
  | World _ => Some t
  | Tasks l => index_of t l
  end.

(* MpiGroup::size, mpi_group.h:68-70 *)
Definition g_size (g : group) : nat :=
  match g with World n => n | Tasks l => length l end.

(* the world ranks of the members, in rank order *)
Definition g_tasks (g : group) : list nat :=
  match g with World n => seq 0 n | Tasks l => l end.

(* MpiGroup::translateRanks, mpi_group.cc:81-92. The input None is
   MPI_PROC_NULL; the result is None for MPI_PROC_NULL, Some None for
   MPI_UNDEFINED. SIMPLIFIED: a rank outside the group reads past the end of
   the vector in the source; here it gives Some None. *)
Definition translate (g1 g2 : group) (r : option nat) : option (option nat) :=
  match r with
  | None => None
  | Some i =>
    match (match g1 with World _ => Some i | Tasks l => nth_error l i end) with
    | Some t => Some (g_rank g2 t)
    | None => Some None
    end
  end.

Fixpoint all_some {A} (l : list (option A)) : option (list A) :=
  match l with
  | [] => Some []
  | Some x :: t => option_map (cons x) (all_some t)
  | None :: _ => None
  end.

(* MpiApi::groupIncl, mpi_api_group.cc:81-100; None is an abort *)
Definition group_incl (g : group) (ranks : list nat) : option group :=
  if g_size g <? length ranks then None
  else option_map Tasks (all_some (map (g_at g) ranks)).

(* one triple of MpiApi::groupRangeIncl, mpi_api_group.cc:54-76. [fuel]
   bounds the loop; None is the abort (or an exhausted bound). *)
Fixpoint range_up (fuel : nat) (rank stop stride : Z) : option (list Z) :=
  match fuel with
  | 0 => None
  | S f => if (rank <=? stop)%Z
           then option_map (cons rank) (range_up f (rank + stride) stop stride)
           else Some []
  end.
Fixpoint range_down (fuel : nat) (rank stop stride : Z) : option (list Z) :=
  match fuel with
  | 0 => None
  | S f => if (stop <=? rank)%Z
           then option_map (cons rank) (range_down f (rank + stride) stop stride)
           else Some []
  end.
Definition range_ranks (fuel : nat) (start stop stride : Z) : option (list Z) :=
  if (stride <? 0)%Z then
    if (start <? stop)%Z then None else range_down fuel start stop stride
  else if (stop <? start)%Z then None else range_up fuel start stop stride.

(* ---- ids of new communicators ---- *)

(* sumi-mpi/mpi_integers.h:59-60 *)
Definition comm_world : N := 0.
Definition comm_self : N := 1145324612.  (* 0x44444444 *)

(* What one process keeps: next_id_ of its MpiCommFactory and its
   communicators (id and group). SIMPLIFIED: ids are unbounded. *)
Record proc := Proc { pr_next : N; pr_comms : list (N * group) }.

(* MpiCommFactory::init, mpi_comm_factory.cc:97-111 *)
Definition proc0 (n p : nat) : proc :=
  Proc 2 [(comm_world, World n); (comm_self, Tasks [p])].

Definition world := nat -> proc.

Definition maxN (l : list N) : N := fold_right N.max 0%N l.

(* commNewIdAgree, mpi_comm_factory.cc:122-132: the MAX allreduce over the
   calling communicator's members [ms] of their next_id_ (the allreduce itself
   is C26). *)
Definition agree (w : world) (ms : list nat) : N :=
  maxN (map (fun p => pr_next (w p)) ms).

Definition memb (p : nat) (l : list nat) : bool := existsb (Nat.eqb p) l.

(* commCreate, mpi_comm_factory.cc:156-170; comm_dup (113-119) and createCart
   (328-343) do the same with the caller's own group. [ms]: the members of the
   calling communicator. *)
Definition comm_create (w : world) (ms : list nat) (g : group) : world :=
  fun p =>
    if memb p ms then
      let cid := agree w ms in
      Proc (cid + 1)
           (match g_rank g p with
            | Some _ => (cid, g) :: pr_comms (w p)
            | None => pr_comms (w p)
            end)
    else w p.

(* commCreateGroup, mpi_comm_factory.cc:134-154: only the members of the group
   take part in the agreement *)
Definition comm_create_group (w : world) (g : group) : world :=
  fun p =>
    match g_rank g p with
    | Some _ =>
      if memb p (g_tasks g) then
        let cid := agree w (g_tasks g) in
        Proc (cid + 1) ((cid, g) :: pr_comms (w p))
      else w p
    | None => w p
    end.

(* key_map[key].push_back(rank) on the std::map of mpi_comm_factory.cc:172 *)
Fixpoint kpush (k : Z) (r : nat) (m : list (Z * list nat)) : list (Z * list nat) :=
  match m with
  | [] => [(k, [r])]
  | (k', l) :: t =>
    if (k <? k')%Z then (k, [r]) :: m
    else if (k =? k')%Z then (k', l ++ [r]) :: t
    else (k', l) :: kpush k r t
  end.

(* std::list::sort, mpi_comm_factory.cc:298 *)
Fixpoint ins (x : nat) (l : list nat) : list nat :=
  match l with
  | [] => [x]
  | y :: t => if x <=? y then x :: l else y :: ins x t
  end.
Definition lsort (l : list nat) : list nat := fold_right ins [] l.

(* the scan over the gathered (id, color, key) triples,
   mpi_comm_factory.cc:269-284; [data] lists (color, key) by rank *)
Fixpoint kscan (mycolor : Z) (rank : nat) (data : list (Z * Z))
    (m : list (Z * list nat)) : list (Z * list nat) :=
  match data with
  | [] => m
  | (color, key) :: t =>
    kscan mycolor (S rank) t
      (if (0 <=? color)%Z && (color =? mycolor)%Z then kpush key rank m else m)
  end.

(* the caller's ranks in the order of the new communicator,
   mpi_comm_factory.cc:292-308 *)
Definition split_ranks (mycolor : Z) (data : list (Z * Z)) : list nat :=
  flat_map (fun e => lsort (snd e)) (kscan mycolor 0 data []).

(* my_new_rank, lines 304-306 *)
Definition split_my_rank (mycolor : Z) (data : list (Z * Z)) (me : nat) : option nat :=
  index_of me (split_ranks mycolor data).

(* the new group: TaskIds through caller->peerTask, line 302-303 *)
Definition split_group (ms : list nat) (mycolor : Z) (data : list (Z * Z)) : group :=
  Tasks (map (fun r => nth r ms 0) (split_ranks mycolor data)).

(* commSplit, mpi_comm_factory.cc:197-326. The id is the maximum next_id_ of
   all callers (lines 281-283). A process with negative color gets no
   communicator and leaves next_id_ alone (lines 263-264). SIMPLIFIED: the
   shared buffer of lines 217-253 / 314-322 is replaced by its contents. *)
Definition comm_split (w : world) (ms : list nat) (data : list (Z * Z)) : world :=
  fun p =>
    match index_of p ms with
    | Some r =>
      let color := fst (nth r data (-1, 0)%Z) in
      if (color <? 0)%Z then w p
      else
        let cid := agree w ms in
        Proc (cid + 1) ((cid, split_group ms color data) :: pr_comms (w p))
    | None => w p
    end.

(* MpiApi::commFree, mpi_api_comm.cc:288-311: the process forgets the id *)
Definition comm_free (w : world) (p : nat) (id : N) : world :=
  fun q =>
    if q =? p then
      Proc (pr_next (w q)) (filter (fun c => negb (fst c =? id)%N) (pr_comms (w q)))
    else w q.

Inductive cop :=
| CCreate (ms : list nat) (g : group)
| CCreateGroup (g : group)
| CSplit (ms : list nat) (data : list (Z * Z))
| CFree (p : nat) (id : N).

Definition cstep (w : world) (o : cop) : world :=
  match o with
  | CCreate ms g => comm_create w ms g
  | CCreateGroup g => comm_create_group w g
  | CSplit ms data => comm_split w ms data
  | CFree p id => comm_free w p id
  end.

(* ---- cartesian communicators ---- *)

(* set_coords, mpi_comm_cart.cc:65-75; int division and remainder truncate.
   SIMPLIFIED: ints are unbounded throughout this part. *)
Fixpoint coords_from (prev : Z) (dims : list Z) (rank : Z) : list Z :=
  match dims with
  | [] => []
  | d :: t => Z.rem (Z.quot rank prev) d :: coords_from (prev * d) t rank
  end.
Definition set_coords (dims : list Z) (rank : Z) : list Z := coords_from 1 dims rank.

(* rank, mpi_comm_cart.cc:77-87 *)
Fixpoint rank_from (prev : Z) (dims coords : list Z) : Z :=
  match dims, coords with
  | d :: t, c :: u => (c * prev + rank_from (prev * d) t u)%Z
  | _, _ => 0%Z
  end.
Definition cart_rank (dims coords : list Z) : Z := rank_from 1 dims coords.

Fixpoint set_at (l : list Z) (i : nat) (x : Z) : list Z :=
  match l, i with
  | [], _ => []
  | _ :: t, 0 => x :: t
  | h :: t, S j => h :: set_at t j x
  end.

(* mpi_comm.h:80 *)
Definition proc_null : Z := (-1)%Z.

(* shift, mpi_comm_cart.cc:89-120; None is the throw of line 94 *)
Definition cart_shift (dims : list Z) (periods : list bool) (me : Z)
    (dir : nat) (dis : Z) : option Z :=
  match nth_error dims dir with
  | None => None
  | Some d =>
    let coords := set_coords dims me in
    let c := (nth dir coords 0 + dis)%Z in
    if (d <=? c)%Z then
      if nth dir periods false then Some (cart_rank dims (set_at coords dir (Z.rem c d)))
      else Some proc_null
    else if (c <? 0)%Z then
      if nth dir periods false
      then Some (cart_rank dims (set_at coords dir (Z.rem (d + c) d)))
      else Some proc_null
    else Some (cart_rank dims (set_at coords dir c))
  end.

(* MpiApi::cartShift, mpi_api_comm.cc:228-239: (source, destination) *)
Definition api_cart_shift dims periods me dir disp : option Z * option Z :=
  (cart_shift dims periods me dir (- disp), cart_shift dims periods me dir disp).

(* ---- collective tags ---- *)

(* nextCollectiveTag, mpi_comm.cc:199-206: next_collective_tag_ is a uint16_t
   that starts at MPI_COMM_WORLD + 100 (line 81), the id is cut to 16 bits. The
   int result is taken as an unsigned 32-bit number. *)
Definition tag16 (id : N) (counter : N) : N :=
  N.lor (N.shiftl (id mod 65536) 16) (counter mod 65536).

(* the communicator (id, counter) after the call, and the tag *)
Definition next_tag (c : N * N) : (N * N) * N :=
  ((fst c, (snd c + 1) mod 65536)%N, tag16 (fst c) (snd c)).

Definition new_comm_tags (id : N) : N * N := (id, 100%N).

(* the tag of the [i]-th collective (from 0) on communicator [id] *)
Fixpoint nth_tag (c : N * N) (i : nat) : N :=
  match i with
  | 0 => snd (next_tag c)
  | S j => nth_tag (fst (next_tag c)) j
  end.

(* commCreateGroup, mpi_comm_factory.cc:142-144: the id agreement runs on a
   temporary communicator with this id *)
Definition temp_id (caller : N) : N := (caller * 1000 + 100000)%N.

(* commCreateGroup, mpi_comm_factory.cc:142-147: the tag of the allreduce that the
   members of [g] use to agree on the id; the group has no part in it *)
Definition agreement_tag (caller : N) (g : group) : N :=
  nth_tag (new_comm_tags (temp_id caller)) 0.

(* ---- lifetime of group objects ---- *)

(* One process. A group object is a number; [h_alive] lists those not deleted.
   A communicator is (handle, group object, del_grp_). *)
Record heap := Heap {
  h_alive : list nat; h_comms : list (nat * (nat * bool));
  h_ngrp : nat; h_ncomm : nat }.

(* world communicator with the world group, mpi_comm_factory.cc:102-104 *)
Definition heap0 : heap := Heap [0] [(0, (0, false))] 1 1.

Inductive hop :=
| HIncl                    (* MPI_Group_incl: a new group object *)
| HCreate (g : nat)        (* MPI_Comm_create with group object g *)
| HDup (c : nat)           (* MPI_Comm_dup *)
| HCart (c : nat)          (* MPI_Cart_create *)
| HSplit                   (* MPI_Comm_split *)
| HGroupFree (g : nat)     (* MPI_Group_free *)
| HCommFree (c : nat).     (* MPI_Comm_free *)

Fixpoint hfind (c : nat) (l : list (nat * (nat * bool))) : option (nat * bool) :=
  match l with
  | [] => None
  | (c', e) :: t => if c' =? c then Some e else hfind c t
  end.

Definition hdel (g : nat) (l : list nat) : list nat :=
  filter (fun x => negb (x =? g)) l.

Definition hadd (h : heap) (g : nat) (del : bool) : heap :=
  Heap (h_alive h) ((h_ncomm h, (g, del)) :: h_comms h) (h_ngrp h) (S (h_ncomm h)).

(* mpi_api_group.cc:93 (new MpiGroup); mpi_comm_factory.cc:165 and 116 (the
   group pointer is shared, del_grp_ false); 338-339 with mpi_comm_cart.cc:54,
   where TOPO_CART is passed in the place of del_grp and so sets it; 309-310
   (own group, del_grp_ true); groupFree mpi_api_group.cc:129-145 deletes the
   object, except for the world group; commFree mpi_api_comm.cc:300-305 with
   ~MpiComm mpi_comm.cc:68-71. SIMPLIFIED: operations on unknown handles do
   nothing. *)
Definition hstep (h : heap) (o : hop) : heap :=
  match o with
  | HIncl => Heap (h_ngrp h :: h_alive h) (h_comms h) (S (h_ngrp h)) (h_ncomm h)
  | HCreate g => hadd h g false
  | HDup c =>
    match hfind c (h_comms h) with
    | Some (g, _) => hadd h g false
    | None => h
    end
  | HCart c =>
    match hfind c (h_comms h) with
    | Some (g, _) => hadd h g true
    | None => h
    end
  | HSplit =>
    hadd (Heap (h_ngrp h :: h_alive h) (h_comms h) (S (h_ngrp h)) (h_ncomm h))
         (h_ngrp h) true
  | HGroupFree g =>
    if g =? 0 then h
    else Heap (hdel g (h_alive h)) (h_comms h) (h_ngrp h) (h_ncomm h)
  | HCommFree c =>
    match hfind c (h_comms h) with
    | Some (g, del) =>
      Heap (if del then hdel g (h_alive h) else h_alive h)
           (filter (fun x => negb (fst x =? c)) (h_comms h))
           (h_ngrp h) (h_ncomm h)
    | None => h
    end
  end.
