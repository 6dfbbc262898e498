(** Collective schedules made of phases, executed asynchronously.

    The rooted collectives (sumi/bcast.cc, gather.cc, scatter.cc, reduce.cc)
    build per rank a graph of actions that is a sequence of phases: the actions
    of one phase are not ordered among each other, and each depends on all
    actions of the phase before.  The executor of the graph of one rank is
    modelled and verified in DagModel.v; this file models what all ranks do
    together.  Messages stay in flight for as long as they like and are matched
    by round and sender (sumi/collective_actor.cc:766-815, key
    Action::messageId(recv, round, sender)).  A send reads its buffer at any
    moment before it completes, as the RDMA protocols do
    (sumi/collective_actor.cc:446-461, 719-764).

    SIMPLIFIED: the eager, get and put protocols are not told apart.  In
    contrast to RdModel.v a rank may send and receive any number of messages in
    a phase and phases of different ranks need not correspond. *)
From Coq Require Import List Arith Lia Bool.
Import ListNotations.

Section Phases.
Context {St Msg : Type}.

(** A send (round, partner, contents) and a receive (round, partner, store). *)
Definition psend := (nat * nat * (St -> Msg))%type.
Definition precv := (nat * nat * (St -> Msg -> St))%type.

(** A phase: what is done locally on entry, then the sends and receives. *)
Record phase := { ph_loc : St -> St; ph_snd : list psend; ph_rcv : list precv }.

Record prog := { pg_np : nat; pg_ph : nat -> list phase; pg_init : nat -> St }.

(** One rank: the sends and receives of the current phase that are not
    complete, the phases to come and the buffers. *)
Record proc := { w_snd : list psend; w_rcv : list precv; w_rest : list phase; w_mem : St }.

Record pcfg := { p_proc : nat -> proc; p_net : list (nat * nat * nat * Msg) }.

Definition pset (f : nat -> proc) (p : nat) (w : proc) : nat -> proc :=
  fun q => if q =? p then w else f q.

Definition pinit (g : prog) : pcfg :=
  {| p_proc := fun p => {| w_snd := []; w_rcv := []; w_rest := pg_ph g p; w_mem := pg_init g p |};
     p_net := [] |}.

Inductive pstep (g : prog) : pcfg -> pcfg -> Prop :=
| p_enter : forall c p w h k, p < pg_np g -> p_proc c p = w -> w_snd w = [] -> w_rcv w = [] ->
    w_rest w = h :: k ->
    pstep g c {| p_proc := pset (p_proc c) p
                   {| w_snd := ph_snd h; w_rcv := ph_rcv h; w_rest := k; w_mem := ph_loc h (w_mem w) |};
                 p_net := p_net c |}
| p_send : forall c p w t q rd l1 l2, p < pg_np g -> p_proc c p = w -> w_snd w = l1 ++ (t, q, rd) :: l2 ->
    pstep g c {| p_proc := pset (p_proc c) p
                   {| w_snd := l1 ++ l2; w_rcv := w_rcv w; w_rest := w_rest w; w_mem := w_mem w |};
                 p_net := (t, p, q, rd (w_mem w)) :: p_net c |}
| p_recv : forall c p w t q wr m l1 l2 n1 n2, p < pg_np g -> p_proc c p = w ->
    w_rcv w = l1 ++ (t, q, wr) :: l2 -> p_net c = n1 ++ (t, q, p, m) :: n2 ->
    pstep g c {| p_proc := pset (p_proc c) p
                   {| w_snd := w_snd w; w_rcv := l1 ++ l2; w_rest := w_rest w; w_mem := wr (w_mem w) m |};
                 p_net := n1 ++ n2 |}.

(** [pexec g n c]: configuration [c] can be reached by [n] actions. *)
Inductive pexec (g : prog) : nat -> pcfg -> Prop :=
| px0 : pexec g 0 (pinit g)
| pxS : forall n c c', pexec g n c -> pstep g c c' -> pexec g (S n) c'.

(** A rank has completed all its phases. *)
Definition pdone (w : proc) : Prop := w_snd w = [] /\ w_rcv w = [] /\ w_rest w = [].
End Phases.
Arguments psend : clear implicits.
Arguments precv : clear implicits.
Arguments phase : clear implicits.
Arguments prog : clear implicits.
Arguments proc : clear implicits.
Arguments pcfg : clear implicits.
