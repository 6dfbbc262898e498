(** What timestamps mean: (epoch, tick) pairs ordered lexicographically. *)
From Coq Require Import NArith.
From Verif Require Import TimeModel.
Local Open Scope N_scope.

Definition wf (t : ts) : Prop := epochs t < two64 /\ ticks t < two64.
(** The instant a timestamp denotes, in ticks since the origin. *)
Definition instant (t : ts) : N := epochs t * two64 + ticks t.
