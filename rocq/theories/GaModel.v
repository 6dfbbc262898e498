(** Binary-tree gather: class BtreeGatherActor, sumi/gather.cc:51-221.

    Of every rank one buffer is modelled, the one its actions work on
    (recv_buffer_ = send_buffer_): the result buffer at the root and a workspace
    of midpoint_*nelems_ elements elsewhere (initBuffers, 65-85). *)
From Coq Require Import List Arith Lia Bool.
From Verif Require Import RdModel PhModel.
Import ListNotations.

Section Gather.
Context {T : Type}.
Variables (n root nelems : nat).

(** initTree, gather.cc:51-63: the loop of RecursiveDoubling::computeTree. *)
Definition ga_mid : nat := midpoint_of n.
Definition ga_log : nat := log2_of n.
(** maxGap, gather.cc:126-130. *)
Definition ga_maxgap : nat := if root =? 0 then ga_mid else ga_mid / 2.

(** Sends in place of [c] blocks from the start of the buffer
    (gather.cc:159-167, 205-219) and receives in place of [c] blocks at block
    [off] (146-155, 186-203; bufferAction, 113-117). *)
Definition ga_send (rnd q c : nat) : psend (nat -> T) (list T) :=
  (rnd, q, fun b => bread b 0 (nelems * c)).
Definition ga_recv (rnd q off c : nat) : precv (nat -> T) (list T) :=
  (rnd, q, fun b v => bwrite b (off * nelems) (firstn (nelems * c) v)).

(** The loop of initDag, gather.cc:138-173; every action depends on the one
    before.  [fuel] bounds the number of rounds. *)
Fixpoint ga_loop (fuel me gap stride rnd : nat) : list (phase (nat -> T) (list T)) :=
  match fuel with
  | 0 => []
  | S f =>
      if ga_maxgap <? gap then []
      else if me mod stride =? 0
           then (if me + gap <? n
                 then [ {| ph_loc := fun b => b; ph_snd := [];
                           ph_rcv := [ga_recv rnd (me + gap) gap (Nat.min (me + gap + gap) n - (me + gap))] |} ]
                 else []) ++ ga_loop f me (gap * 2) (stride * 2) (S rnd)
           else [ {| ph_loc := fun b => b;
                     ph_snd := [ga_send rnd (me - gap) (Nat.min (me + gap) n - me)]; ph_rcv := [] |} ]
  end.

(** startShuffle, gather.cc:100-111, with the offset and count of 176-183. *)
Definition ga_shuffle (b : nat -> T) : nat -> T :=
  bwrite b (ga_mid * nelems) (bread b 0 ((n - ga_mid) * nelems)).

(** The rest of initDag, gather.cc:175-220.  The two receives of the root are
    not ordered among each other. *)
Definition ga_final (me : nat) : list (phase (nat -> T) (list T)) :=
  if root =? 0 then []
  else if me =? root
       then [ {| ph_loc := if root =? ga_mid then ga_shuffle else fun b => b; ph_snd := [];
                 ph_rcv := ga_recv ga_log 0 0 ga_mid ::
                           (if ga_mid =? root then [] else [ga_recv ga_log ga_mid ga_mid (n - ga_mid)]) |} ]
       else if me =? 0
            then [ {| ph_loc := fun b => b; ph_snd := [ga_send ga_log root ga_mid]; ph_rcv := [] |} ]
            else if (me =? ga_mid) && negb (ga_mid =? root)
                 then [ {| ph_loc := fun b => b; ph_snd := [ga_send ga_log root (n - ga_mid)]; ph_rcv := [] |} ]
                 else [].

Definition ga_phases (me : nat) : list (phase (nat -> T) (list T)) :=
  ga_loop (S n) me 1 2 0 ++ ga_final me.

(** initBuffers, gather.cc:65-85: the own block is copied to the start. *)
Definition ga_init (src buf : nat -> nat -> T) (me : nat) : nat -> T :=
  bwrite (buf me) 0 (bread (src me) 0 nelems).

Definition gather_prog (src buf : nat -> nat -> T) : prog (nat -> T) (list T) :=
  {| pg_np := n; pg_ph := ga_phases; pg_init := ga_init src buf |}.
End Gather.
