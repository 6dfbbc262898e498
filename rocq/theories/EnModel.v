(* The collective engine of one rank: starting collectives, delivering messages,
   chains of collectives.
   /repo/sumi/sim_transport.cc:912-1055, /repo/sumi/collective.cc:122-194 *)
From Coq Require Import List Bool Arith.
Import ListNotations.

(* A collective is known by its type and tag, here one number.  What its actor does
   with messages is left open: a state, the effect of a message
   (DagCollectiveActor::recv), and complete() (collective_actor.h). *)
Record actor (St Msg : Type) : Type := {
  a_recv : St -> Msg -> St;
  a_complete : St -> bool
}.
Arguments a_recv {St Msg} _ _ _.
Arguments a_complete {St Msg} _ _.

Section Engine.
Variables St Msg : Type.
Variable A : actor St Msg.

(* One collective: key, and the actor's state after start() (collective.cc:196-204).
   A chain is a collective with its subsequents (setSubsequent/popSubsequent,
   collective.h); a final DoNothingCollective is the end of the list, because
   startCollective reports it done at once (sim_transport.cc:951-954). *)
Definition stage : Type := (nat * St)%type.
Definition chain : Type := list stage.

Record engine : Type := {
  e_act : nat -> option (St * chain);   (* collectives_, and the subsequents *)
  e_pend : nat -> list Msg              (* pending_collective_msgs_ *)
}.

Definition upd {B} (f : nat -> B) (k : nat) (v : B) : nat -> B :=
  fun x => if Nat.eqb x k then v else f x.

(* deliverPending, sim_transport.cc:912-922, with DagCollective::recv,
   collective.cc:167-194: every message is handed to the actor; what is returned is
   whether the actor was complete after the last one (doneMsg or null). *)
Fixpoint deliver (s : St) (dmsg : bool) (l : list Msg) : St * bool :=
  match l with
  | [] => (s, dmsg)
  | m :: r => let s' := a_recv A s m in deliver s' (a_complete A s') r
  end.

(* finishCollective, sim_transport.cc:982-1004, runs inside start() or recv() when
   the actor completes: with one actor the reference count drops to zero, the entry
   and the pending messages of the key are erased. *)
Definition finish (e : engine) (k : nat) : engine :=
  {| e_act := upd (e_act e) k None; e_pend := upd (e_pend e) k [] |}.

(* startCollective, sim_transport.cc:948-980, on a collective with its subsequents;
   returned is the done message, by the key of the collective that made it; the one
   made for a final DoNothingCollective stands for the whole chain, so id is passed
   along.  A key that is already active is an
   error (addActors of a collective that cannot take more) and not modelled: it
   overwrites.  The while loop of 973-977 is the recursion. *)
Fixpoint start (e : engine) (id : nat) (c : chain) : engine * option nat :=
  match c with
  | [] => (e, Some id)
  | (k, s0) :: rest =>
    let '(s, dmsg) := deliver s0 false (e_pend e k) in
    let e0 := {| e_act := e_act e; e_pend := upd (e_pend e) k [] |} in
    let e1 := if a_complete A s then finish e0 k
              else {| e_act := upd (e_act e) k (Some (s, rest)); e_pend := e_pend e0 |} in
    if dmsg then start e1 k rest else (e1, None)
  end.

(* CollectiveEngine::incoming, sim_transport.cc:1023-1055 *)
Definition incoming (e : engine) (k : nat) (m : Msg) : engine * option nat :=
  match e_act e k with
  | None => ({| e_act := e_act e; e_pend := upd (e_pend e) k (e_pend e k ++ [m]) |}, None)
  | Some (s, rest) =>
    let s' := a_recv A s m in
    if a_complete A s' then start (finish e k) k rest
    else ({| e_act := upd (e_act e) k (Some (s', rest)); e_pend := e_pend e |}, None)
  end.

(* What happens to the engine of a rank: the program starts a chain, or a message
   for some key is polled. *)
Inductive op : Type :=
| OStart (c : chain)
| OArrive (k : nat) (m : Msg).

Definition step (e : engine) (o : op) : engine * option nat :=
  match o with
  | OStart c => start e 0 c
  | OArrive k m => incoming e k m
  end.

Definition fresh : engine := {| e_act := fun _ => None; e_pend := fun _ => [] |}.

(* A run, with the done messages returned so far, latest first. *)
Fixpoint run (e : engine) (done : list nat) (ops : list op) : engine * list nat :=
  match ops with
  | [] => (e, done)
  | o :: r =>
    let '(e', d) := step e o in
    run e' (match d with Some k => k :: done | None => done end) r
  end.

End Engine.
Arguments OStart {St Msg} _.
Arguments OArrive {St Msg} _ _.
Arguments e_act {St Msg} _ _.
Arguments e_pend {St Msg} _ _.
