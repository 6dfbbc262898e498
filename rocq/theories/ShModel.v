(** The round machine of RdModel.v for ranks that play several roles: the
    folded algorithms of sumi (sumi/allreduce.cc:118-225, sumi/reduce.cc) give
    some ranks two virtual ranks, and both work on the one result buffer of the
    rank, each at its own pace (there are no dependencies between the actions of
    different roles). *)
From Coq Require Import List Arith Lia Bool.
From Verif Require Import RdModel.
Import ListNotations.

Section Shared.
Context {T Msg : Type}.
Variable s : sched (nat -> T) Msg.
(** The rank that plays a role. *)
Variable owner : nat -> nat.

(** Control state per role, memory per rank, messages in flight. *)
Record shcfg := { h_ctl : nat -> loc unit; h_mem : nat -> nat -> T; h_net : list (nat * nat * nat * Msg) }.

Definition hset (f : nat -> nat -> T) (p : nat) (b : nat -> T) : nat -> nat -> T :=
  fun q => if q =? p then b else f q.

Definition hinit (mem : nat -> nat -> T) : shcfg :=
  {| h_ctl := fun _ => {| l_rnd := 0; l_open := false; l_sent := false; l_rcvd := false; l_mem := tt |};
     h_mem := mem; h_net := [] |}.

(** The four actions of [rstep], acting on the memory of the owner. *)
Inductive hstep : shcfg -> shcfg -> Prop :=
| h_enter : forall c v l, v < sc_np s -> h_ctl c v = l -> l_rnd l < sc_nr s -> l_open l = false ->
    hstep c {| h_ctl := rset (h_ctl c) v
                 {| l_rnd := l_rnd l; l_open := true; l_sent := false; l_rcvd := false; l_mem := tt |};
               h_mem := hset (h_mem c) (owner v) (sc_pre s (l_rnd l) v (h_mem c (owner v)));
               h_net := h_net c |}
| h_send : forall c v l q, v < sc_np s -> h_ctl c v = l -> l_open l = true -> l_sent l = false ->
    sc_to s (l_rnd l) v = Some q ->
    hstep c {| h_ctl := rset (h_ctl c) v
                 {| l_rnd := l_rnd l; l_open := true; l_sent := true; l_rcvd := l_rcvd l; l_mem := tt |};
               h_mem := h_mem c;
               h_net := (l_rnd l, v, q, sc_out s (l_rnd l) v (h_mem c (owner v))) :: h_net c |}
| h_recv : forall c v l q m n1 n2, v < sc_np s -> h_ctl c v = l -> l_open l = true ->
    l_rcvd l = false -> sc_from s (l_rnd l) v = Some q ->
    h_net c = n1 ++ (l_rnd l, q, v, m) :: n2 ->
    hstep c {| h_ctl := rset (h_ctl c) v
                 {| l_rnd := l_rnd l; l_open := true; l_sent := l_sent l; l_rcvd := true; l_mem := tt |};
               h_mem := hset (h_mem c) (owner v) (sc_in s (l_rnd l) v (h_mem c (owner v)) m);
               h_net := n1 ++ n2 |}
| h_leave : forall c v l, v < sc_np s -> h_ctl c v = l -> l_open l = true ->
    (sc_to s (l_rnd l) v <> None -> l_sent l = true) ->
    (sc_from s (l_rnd l) v <> None -> l_rcvd l = true) ->
    hstep c {| h_ctl := rset (h_ctl c) v
                 {| l_rnd := S (l_rnd l); l_open := false; l_sent := false; l_rcvd := false; l_mem := tt |};
               h_mem := hset (h_mem c) (owner v) (sc_post s (l_rnd l) v (h_mem c (owner v)));
               h_net := h_net c |}.

Inductive hexec (mem : nat -> nat -> T) : nat -> shcfg -> Prop :=
| hx0 : hexec mem 0 (hinit mem)
| hxS : forall n c c', hexec mem n c -> hstep c c' -> hexec mem (S n) c'.
End Shared.
Arguments shcfg : clear implicits.
