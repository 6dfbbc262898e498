(** Binary-tree broadcast: class BinaryTreeBcastActor, sumi/bcast.cc:51-171. *)
From Coq Require Import List Arith Lia Bool.
From Verif Require Import RdModel PhModel.
Import ListNotations.

(** The loop that halves a gap or stride until it is 0 (bcast.cc:60-70, 85-97). *)
Fixpoint halvings (fuel s : nat) : list nat :=
  match fuel with
  | 0 => []
  | S f => if s =? 0 then [] else s :: halvings f (s / 2)
  end.

(** The search for the window of a rank, bcast.cc:103-113; windowSplit is
    windowStart + windowSize throughout. *)
Fixpoint bc_find (fuel o start size : nat) : nat * nat :=
  match fuel with
  | 0 => (start, size)
  | S f =>
      if (0 <? size) && negb (o =? start + size)
      then bc_find f o (if start + size <? o then start + size else start) (size / 2)
      else (start, size)
  end.

Section Bcast.
Context {T : Type}.
Variables (n root nelems : nat).

(** roundNproc, bcast.cc:144-149 (same loop as RecursiveDoubling::computeTree). *)
Definition bc_round : nat := pow2_of n.

(** offsetMe, bcast.cc:154.
    SIMPLIFIED: (me - root + n) with me, root < n. *)
Definition bc_off (me : nat) : nat := (me + n - root) mod n.
(** bcast.cc:63, 90, 118: everything offset by root. *)
Definition bc_real (o : nat) : nat := (o + root) mod n.

Definition bc_window (o : nat) : nat * nat := bc_find (S n) o 0 (bc_round / 2).

(** Partners of the sends: init_root (57-71) and init_internal (73-98). *)
Definition bc_sends_root : list nat :=
  map (fun g => (root + g) mod n) (filter (fun g => g <? n) (halvings (S n) (bc_round / 2))).
Definition bc_sends_child (o : nat) : list nat :=
  let '(start, size) := bc_window o in
  let stop := Nat.min n (start + size + size) in
  if o mod 2 =? 0
  then map (fun s => bc_real (o + s)) (filter (fun s => o + s <? stop) (halvings (S n) size))
  else [].

(** The actions: a send of the whole buffer, a receive of the whole buffer
    (initBuffers 159-171: the three buffers are one and the same). *)
Definition bc_send (q : nat) : psend (nat -> T) (list T) := (0, q, fun b => bread b 0 nelems).
Definition bc_recv (q : nat) : precv (nat -> T) (list T) := (0, q, fun b v => bwrite b 0 (firstn nelems v)).

(** initDag, bcast.cc:141-157. *)
Definition bc_phases (me : nat) : list (phase (nat -> T) (list T)) :=
  if me =? root
  then [ {| ph_loc := fun b => b; ph_snd := map bc_send bc_sends_root; ph_rcv := [] |} ]
  else let o := bc_off me in
       [ {| ph_loc := fun b => b; ph_snd := []; ph_rcv := [bc_recv (bc_real (fst (bc_window o)))] |};
         {| ph_loc := fun b => b; ph_snd := map bc_send (bc_sends_child o); ph_rcv := [] |} ].

Definition bcast_prog (buf : nat -> nat -> T) : prog (nat -> T) (list T) :=
  {| pg_np := n; pg_ph := bc_phases; pg_init := buf |}.
End Bcast.
