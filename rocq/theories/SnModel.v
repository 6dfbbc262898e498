(** Inclusive scan: class SimultaneousBtreeScanActor, sumi/scan.cc:58-152.

    Of every rank the send workspace (send_buffer_) and the result buffer are
    modelled, in this order.
    SIMPLIFIED: the receive workspace is left out; a message is reduced into the
    result straight from where it landed (sumi/collective_actor.cc:603-609). *)
From Coq Require Import List Arith Lia Bool.
From Verif Require Import RdModel ArModel PhModel.
Import ListNotations.

Section Scan.
Context {T : Type}.
Variable op : T -> T -> T.
Variables (n nelems : nat).

Definition sbufs : Type := ((nat -> T) * (nat -> T))%type.

(** startShuffle, scan.cc:147-152: the result becomes what is sent next. *)
Definition sn_shuffle (b : sbufs) : sbufs :=
  (bwrite (fst b) 0 (bread (snd b) 0 nelems), snd b).

(** The send of scan.cc:107-114 (SendAction::temp_send) and the receive of
    115-122 (RecvAction::reduce; bufferAction, 141-145). *)
Definition sn_send (rnd q : nat) : psend sbufs (list T) :=
  (rnd, q, fun b => bread (fst b) 0 nelems).
Definition sn_recv (rnd q : nat) : precv sbufs (list T) :=
  (rnd, q, fun b v => (fst b, breduce op (snd b) 0 (firstn nelems v))).

(** The loop of initDag, scan.cc:95-138.  [rb]: recv_buffer_ is not null while
    initDag runs (128).  The shuffle that the code creates at the end of a round
    is the local action at the begin of the next one here; it is only created if
    that round sends.  [fuel] bounds the number of rounds. *)
Fixpoint sn_loop (rb : bool) (fuel me gap rnd : nat) : list (phase sbufs (list T)) :=
  match fuel with
  | 0 => []
  | S f =>
      if (me + gap <? n) || (gap <=? me)
      then {| ph_loc := if rb && negb (rnd =? 0) && (me + gap <? n) then sn_shuffle else fun b => b;
              ph_snd := if me + gap <? n then [sn_send rnd (me + gap)] else [];
              ph_rcv := if gap <=? me then [sn_recv rnd (me - gap)] else [] |}
           :: sn_loop rb f me (gap * 2) (S rnd)
      else []
  end.

(** initBuffers, scan.cc:69-85. *)
Definition sn_init (src wsp dst : nat -> nat -> T) (me : nat) : sbufs :=
  (bwrite (wsp me) 0 (bread (src me) 0 nelems), bwrite (dst me) 0 (bread (src me) 0 nelems)).

Definition scan_with (rb : bool) (src wsp dst : nat -> nat -> T) : prog sbufs (list T) :=
  {| pg_np := n; pg_ph := fun me => sn_loop rb (S n) me 1 0; pg_init := sn_init src wsp dst |}.

(** DagCollectiveActor::init, sumi/collective_actor.h:365-369, calls initDag
    before initBuffers, and the constructor set recv_buffer_ to null
    (collective_actor.h:387). *)
Definition recv_buffer_in_init_dag : bool := false.
Definition scan_prog : (nat -> nat -> T) -> (nat -> nat -> T) -> (nat -> nat -> T) -> prog sbufs (list T) :=
  scan_with recv_buffer_in_init_dag.
End Scan.
