(** Collective schedules made of rounds, executed asynchronously.

    Every data collective of sumi that is modelled here builds a per-rank
    graph of actions in which the send and the receive of round r+1 both
    depend on the send and on the receive of round r (e.g.
    sumi/allgather.cc:138-141, sumi/allreduce.cc:169-172,
    sumi/alltoall.cc:184-191).  The executor of these graphs is modelled and
    verified in DagModel.v (sumi/collective_actor.cc:147-260): an action is
    started exactly when its predecessors are complete.

    This file models what all ranks together then do: ranks advance at their
    own speed, messages stay in flight for as long as they like and are matched
    by (round, sender) as in sumi/collective_actor.cc:766-815 (incomingHeader
    looks up Action::messageId(recv, round, sender)).  Within a round the
    payload of the send may be read before or after the receive has landed:
    the RDMA protocols read the send buffer when the transfer happens, not when
    the action starts (sumi/collective_actor.cc:446-461, 719-764).

    SIMPLIFIED: the eager, get and put protocols are not told apart; a message
    carries the buffer contents read at some moment between the start of the
    round and the completion of the send. *)
From Coq Require Import List Arith Lia Bool.
Import ListNotations.

Section Rounds.
Context {St Msg : Type}.

(** The schedule: number of participants and of rounds; in round [r]
    participant [p] sends to [to r p] and receives from [from r p] (if any);
    [pre] and [post] are the local shuffles at the beginning and at the end of
    the round, [out] reads the send region and [inn] stores what was received. *)
Record sched := {
  sc_np : nat;
  sc_nr : nat;
  sc_to : nat -> nat -> option nat;
  sc_from : nat -> nat -> option nat;
  sc_pre : nat -> nat -> St -> St;
  sc_out : nat -> nat -> St -> Msg;
  sc_in : nat -> nat -> St -> Msg -> St;
  sc_post : nat -> nat -> St -> St;
  sc_init : nat -> St
}.

(** One participant: current round, whether the round was entered, whether its
    send and its receive are complete, and its buffers. *)
Record loc := { l_rnd : nat; l_open : bool; l_sent : bool; l_rcvd : bool; l_mem : St }.

Record rcfg := { r_loc : nat -> loc; r_net : list (nat * nat * nat * Msg) }.

Definition rset (f : nat -> loc) (p : nat) (l : loc) : nat -> loc :=
  fun q => if q =? p then l else f q.

Definition rinit (s : sched) : rcfg :=
  {| r_loc := fun p => {| l_rnd := 0; l_open := false; l_sent := false; l_rcvd := false;
                          l_mem := sc_init s p |};
     r_net := [] |}.

(** One atomic action of one participant. *)
Inductive rstep (s : sched) : rcfg -> rcfg -> Prop :=
| r_enter : forall c p l, p < sc_np s -> r_loc c p = l -> l_rnd l < sc_nr s -> l_open l = false ->
    rstep s c {| r_loc := rset (r_loc c) p
                   {| l_rnd := l_rnd l; l_open := true; l_sent := false; l_rcvd := false;
                      l_mem := sc_pre s (l_rnd l) p (l_mem l) |};
                 r_net := r_net c |}
| r_send : forall c p l q, p < sc_np s -> r_loc c p = l -> l_open l = true -> l_sent l = false ->
    sc_to s (l_rnd l) p = Some q ->
    rstep s c {| r_loc := rset (r_loc c) p
                   {| l_rnd := l_rnd l; l_open := true; l_sent := true; l_rcvd := l_rcvd l;
                      l_mem := l_mem l |};
                 r_net := (l_rnd l, p, q, sc_out s (l_rnd l) p (l_mem l)) :: r_net c |}
| r_recv : forall c p l q m n1 n2, p < sc_np s -> r_loc c p = l -> l_open l = true ->
    l_rcvd l = false -> sc_from s (l_rnd l) p = Some q ->
    r_net c = n1 ++ (l_rnd l, q, p, m) :: n2 ->
    rstep s c {| r_loc := rset (r_loc c) p
                   {| l_rnd := l_rnd l; l_open := true; l_sent := l_sent l; l_rcvd := true;
                      l_mem := sc_in s (l_rnd l) p (l_mem l) m |};
                 r_net := n1 ++ n2 |}
| r_leave : forall c p l, p < sc_np s -> r_loc c p = l -> l_open l = true ->
    (sc_to s (l_rnd l) p <> None -> l_sent l = true) ->
    (sc_from s (l_rnd l) p <> None -> l_rcvd l = true) ->
    rstep s c {| r_loc := rset (r_loc c) p
                   {| l_rnd := S (l_rnd l); l_open := false; l_sent := false; l_rcvd := false;
                      l_mem := sc_post s (l_rnd l) p (l_mem l) |};
                 r_net := r_net c |}.

(** [rexec s n c] : configuration [c] can be reached by [n] actions. *)
Inductive rexec (s : sched) : nat -> rcfg -> Prop :=
| rx0 : rexec s 0 (rinit s)
| rxS : forall n c c', rexec s n c -> rstep s c c' -> rexec s (S n) c'.

End Rounds.
Arguments sched : clear implicits.
Arguments loc : clear implicits.
Arguments rcfg : clear implicits.

(** Buffers of elements.  memcpy of [n] elements at an offset is [bread] /
    [bwrite] (sumi/comm_functions.h:55-100, Transport::memcopy).
    SIMPLIFIED: element granularity, i.e. offsets and lengths are divided by
    type_size_, which multiplies every offset and length in the code. *)
Section Buf.
Context {T : Type}.
Definition bread (b : nat -> T) (off n : nat) : list T := map b (seq off n).
Definition bwrite (b : nat -> T) (off : nat) (l : list T) : nat -> T :=
  fun i => if i <? off then b i else nth (i - off) l (b i).
End Buf.

(** RecursiveDoubling::computeTree, sumi/collective_actor.cc:887-898: the loop
    doubles pow2nproc until it reaches nproc and counts the doublings.
    SIMPLIFIED: int does not overflow (nproc below 2^30).  [fuel] bounds the
    number of iterations, nproc is enough ([ctree_ok] in RdProof.v). *)
Fixpoint ctree_loop (fuel nproc pow2 lg : nat) : nat * nat :=
  match fuel with
  | 0 => (pow2, lg)
  | S f => if pow2 <? nproc then ctree_loop f nproc (pow2 * 2) (S lg) else (pow2, lg)
  end.
Definition pow2_of (nproc : nat) : nat := fst (ctree_loop nproc nproc 1 0).
Definition log2_of (nproc : nat) : nat := snd (ctree_loop nproc nproc 1 0).
Definition midpoint_of (nproc : nat) : nat := pow2_of nproc / 2.
