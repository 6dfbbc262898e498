(** Bruck alltoall: sumi/alltoall.cc:65-232. *)
From Coq Require Import List Arith Lia Bool.
From Verif Require Import RdModel AgModel.
Import ListNotations.

Section Aa.
Context {T : Type}.

(** The buffers of a BruckAlltoallActor: result, temporary send buffer and
    temporary receive buffer (sumi/alltoall.cc:83-86). *)
Record abufs := { a_res : nat -> T; a_snd : nat -> T; a_rcv : nat -> T }.

(** BruckAlltoallActor::shuffle, sumi/alltoall.cc:98-119, copying to the
    temporary buffer: every second group of [gap] blocks.  [fuel] bounds the
    iterations, nproc is enough. *)
Fixpoint shuffle_to (fuel nproc ne gap main tmp : nat) (res snd : nat -> T) : nat -> T :=
  match fuel with
  | 0 => snd
  | S f =>
      if main <? nproc then
        shuffle_to f nproc ne gap (main + gap * 2) (tmp + gap) res
          (bwrite snd (tmp * ne) (bread res (main * ne) (Nat.min gap (nproc - main) * ne)))
      else snd
  end.

(** The same loop copying from the temporary buffer into the result. *)
Fixpoint shuffle_from (fuel nproc ne gap main tmp : nat) (rcv res : nat -> T) : nat -> T :=
  match fuel with
  | 0 => res
  | S f =>
      if main <? nproc then
        shuffle_from f nproc ne gap (main + gap * 2) (tmp + gap) rcv
          (bwrite res (main * ne) (bread rcv (tmp * ne) (Nat.min gap (nproc - main) * ne)))
      else res
  end.

(** numSendBlocks of a round, sumi/alltoall.cc:154-163. *)
Definition num_send_blocks (nproc gap : nat) : nat :=
  let window := nproc - gap in
  let stride := gap * 2 in
  window / stride * gap + Nat.min gap (window mod stride).

(** Rounds of BruckAlltoallActor::initDag, sumi/alltoall.cc:139-151: the rounds
    of BruckTree::computeTree plus one if there are extra processes. *)
Definition aa_rounds (nproc : nat) : nat :=
  if bruck_extra nproc =? 0 then bruck_rounds nproc else bruck_rounds nproc + 1.

(** partnerGap in round [r], doubled every round (sumi/alltoall.cc:142, 194). *)
Fixpoint aa_gap (r : nat) : nat := match r with 0 => 1 | S r' => aa_gap r' * 2 end.

(** BruckAlltoallActor::initBuffers, sumi/alltoall.cc:65-87: rotate the send
    buffer by my rank into the result buffer. *)
Definition aa_init (nproc ne me : nat) (dst src : nat -> T) : nat -> T :=
  let offset := me * ne in
  let total := nproc * ne in
  let b1 := bwrite dst 0 (bread src offset (total - offset)) in
  bwrite b1 (total - offset) (bread src 0 offset).

(** BruckAlltoallActor::finalize, sumi/alltoall.cc:204-232: [k] iterations of
    the loop over blocks 0 .. k-1. *)
Fixpoint aa_final_loop (k nproc ne me : nat) (res tmp : nat -> T) : nat -> T :=
  match k with
  | 0 => tmp
  | S i =>
      let tmp' := aa_final_loop i nproc ne me res tmp in
      bwrite tmp' (((me + nproc - i) mod nproc) * ne) (bread res (i * ne) ne)
  end.
Definition aa_finalize (nproc ne me : nat) (res : nat -> T) : nat -> T :=
  bwrite res 0 (bread (aa_final_loop nproc nproc ne me res res) 0 (nproc * ne)).

(** BruckAlltoallActor::initDag, sumi/alltoall.cc:136-196.  In every round the
    send shuffle comes first, then send and receive, then the receive shuffle
    (dependencies at 184-191).  The receive goes to the temporary buffer and
    stays packed (sumi/collective_actor.cc:616-624). *)
Definition aa_sched (nproc ne : nat) (dst src : nat -> nat -> T) (tmp : nat -> T)
  : sched abufs (list T) := {|
  sc_np := nproc;
  sc_nr := aa_rounds nproc;
  sc_to := fun r p => Some ((p + aa_gap r) mod nproc);
  sc_from := fun r p => Some ((p + nproc - aa_gap r) mod nproc);
  sc_pre := fun r p b =>
    {| a_res := a_res b;
       a_snd := shuffle_to nproc nproc ne (aa_gap r) (aa_gap r) 0 (a_res b) (a_snd b);
       a_rcv := a_rcv b |};
  sc_out := fun r p b => bread (a_snd b) 0 (num_send_blocks nproc (aa_gap r) * ne);
  sc_in := fun r p b m =>
    {| a_res := a_res b; a_snd := a_snd b;
       a_rcv := bwrite (a_rcv b) 0 (firstn (num_send_blocks nproc (aa_gap r) * ne) m) |};
  sc_post := fun r p b =>
    {| a_res := shuffle_from nproc nproc ne (aa_gap r) (aa_gap r) 0 (a_rcv b) (a_res b);
       a_snd := a_snd b; a_rcv := a_rcv b |};
  sc_init := fun p => {| a_res := aa_init nproc ne p (dst p) (src p); a_snd := tmp; a_rcv := tmp |} |}.
End Aa.
Arguments abufs : clear implicits.
