(** Bruck allgather and barrier: sumi/allgather.cc, sumi/allgather.h. *)
From Coq Require Import List Arith Lia Bool.
From Verif Require Import RdModel.
Import ListNotations.

(** One send/receive pair of a round: partners, and offset and number of
    elements on each side (struct Action, sumi/collective_actor.h:74-84). *)
Record xact := { x_sp : nat; x_rp : nat; x_so : nat; x_sn : nat; x_ro : nat; x_rn : nat }.

(** BruckTree::computeTree, sumi/allgather.cc:62-75. *)
Definition bruck_rounds (nproc : nat) : nat :=
  if nproc =? pow2_of nproc then log2_of nproc else log2_of nproc - 1.
Definition bruck_extra (nproc : nat) : nat :=
  if nproc =? pow2_of nproc then 0 else nproc - midpoint_of nproc.

(** The loop of BruckActor::initDag, sumi/allgather.cc:128-147; it also returns
    the final partner_gap and round_nelems. *)
Fixpoint bruck_loop (k nproc me gap rn : nat) : list xact * nat * nat :=
  match k with
  | 0 => ([], gap, rn)
  | S k' =>
      let x := {| x_sp := (me + nproc - gap) mod nproc; x_rp := (me + gap) mod nproc;
                  x_so := 0; x_sn := rn; x_ro := rn; x_rn := rn |} in
      let '(l, g, n) := bruck_loop k' nproc me (gap * 2) (rn * 2) in
      (x :: l, g, n)
  end.

(** BruckActor::initDag, sumi/allgather.cc:104-165: the rounds and, unless the
    number of ranks is a power of two, one more round for the rest. *)
Definition bruck_dag (nproc nelems me : nat) : list xact :=
  let '(l, gap, rn) := bruck_loop (bruck_rounds nproc) nproc me 1 nelems in
  if bruck_extra nproc =? 0 then l
  else l ++ [{| x_sp := (me + nproc - gap) mod nproc; x_rp := (me + gap) mod nproc;
                x_so := 0; x_sn := bruck_extra nproc * nelems;
                x_ro := rn; x_rn := bruck_extra nproc * nelems |}].

Section Ag.
Context {T : Type}.

(** BruckActor::initBuffers, sumi/allgather.cc:77-97: put my block at the
    beginning of the result buffer; [None] as source means in place. *)
Definition bruck_init (nelems me : nat) (dst : nat -> T) (src : option (nat -> T)) : nat -> T :=
  match src with
  | None => if me =? 0 then dst else bwrite dst 0 (bread dst (me * nelems) nelems)
  | Some s => bwrite dst 0 (bread s 0 nelems)
  end.

(** BruckActor::finalize, sumi/allgather.cc:173-206: rotate by my rank. *)
Definition bruck_finalize (nproc nelems me : nat) (b : nat -> T) : nat -> T :=
  if me =? 0 then b
  else
    let total := nelems * nproc in
    let my := nelems * me in
    let b1 := bwrite b my (bread b 0 (total - my)) in
    bwrite b1 0 (bread b (total - my) my).

(** The schedule.  The received data is stored by unpackRecvBuf at the offset
    of the receive action, as many elements as that action says
    (sumi/collective_actor.cc:610-624). *)
Definition bruck_sched (nproc nelems : nat) (dst : nat -> nat -> T) (src : nat -> option (nat -> T))
  : sched (nat -> T) (list T) := {|
  sc_np := nproc;
  sc_nr := length (bruck_dag nproc nelems 0);
  sc_to := fun r p => option_map x_sp (nth_error (bruck_dag nproc nelems p) r);
  sc_from := fun r p => option_map x_rp (nth_error (bruck_dag nproc nelems p) r);
  sc_pre := fun _ _ b => b;
  sc_out := fun r p b => match nth_error (bruck_dag nproc nelems p) r with
                         | Some x => bread b (x_so x) (x_sn x) | None => [] end;
  sc_in := fun r p b m => match nth_error (bruck_dag nproc nelems p) r with
                          | Some x => bwrite b (x_ro x) (firstn (x_rn x) m) | None => b end;
  sc_post := fun _ _ b => b;
  sc_init := fun p => bruck_init nelems p (dst p) (src p) |}.

(** RingAllgatherActor::initDag, sumi/allgather.cc:225-260. *)
Fixpoint ring_loop (k nproc nelems me last : nat) : list xact :=
  match k with
  | 0 => []
  | S k' =>
      let rc := (last + nproc - 1) mod nproc in
      {| x_sp := (me + 1) mod nproc; x_rp := (me + nproc - 1) mod nproc;
         x_so := last * nelems; x_sn := nelems; x_ro := rc * nelems; x_rn := nelems |}
      :: ring_loop k' nproc nelems me rc
  end.
Definition ring_dag (nproc nelems me : nat) : list xact := ring_loop (nproc - 1) nproc nelems me me.

(** RingAllgatherActor::initBuffers (sumi/allgather.cc:208-212) copies nothing:
    the schedule works on the result buffer as the caller left it. *)
Definition ring_sched (nproc nelems : nat) (dst : nat -> nat -> T)
  : sched (nat -> T) (list T) := {|
  sc_np := nproc;
  sc_nr := length (ring_dag nproc nelems 0);
  sc_to := fun r p => option_map x_sp (nth_error (ring_dag nproc nelems p) r);
  sc_from := fun r p => option_map x_rp (nth_error (ring_dag nproc nelems p) r);
  sc_pre := fun _ _ b => b;
  sc_out := fun r p b => match nth_error (ring_dag nproc nelems p) r with
                         | Some x => bread b (x_so x) (x_sn x) | None => [] end;
  sc_in := fun r p b m => match nth_error (ring_dag nproc nelems p) r with
                          | Some x => bwrite b (x_ro x) (firstn (x_rn x) m) | None => b end;
  sc_post := fun _ _ b => b;
  sc_init := dst |}.
End Ag.
