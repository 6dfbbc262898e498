(** What the torus theorems say, in terms of cables and channels. *)
From Coq Require Import List ZArith Arith Relations.
From Verif Require Import TorusModel.
Import ListNotations.

(** A legal coordinate vector for the given dimension sizes. *)
Definition legal_coords (dims cs : list nat) : Prop := Forall2 (fun c d => c < d) cs dims.

(** There is a cable from switch [s] to switch [s']. *)
Definition cable (dims : list nat) (s s' : nat) : Prop :=
  exists c, In c (connected_outports dims s) /\ c_dst c = Z.of_nat s'.

(** [hops dims n s t]: a path of [n] cables leads from [s] to [t]. *)
Inductive hops (dims : list nat) : nat -> nat -> nat -> Prop :=
| hops_0 : forall s, hops dims 0 s s
| hops_S : forall n s s' t, cable dims s s' -> hops dims n s' t -> hops dims (S n) s t.

(** [a] immediately precedes [b] in a list. *)
Definition consecutive {A} (l : list A) (a b : A) : Prop :=
  exists pre post, l = pre ++ a :: b :: post.

(** Channel dependency (Dally and Seitz): some packet, injected at switch [s] for node [nid] and
    steered by one of the routing functions the policy allows for it, holds channel [a] while it
    asks for channel [b]. *)
Definition waits_for {H} (dims : list nat) (conc : nat) (h0 : H)
  (policy : nat -> nat -> (nat -> H -> outcome H) -> Prop) (a b : chan) : Prop :=
  exists s nid route fuel tr e p,
    s < prod dims /\ nid / conc < prod dims /\ policy s nid route /\
    walk dims route fuel s h0 = Some (tr, e, p) /\
    consecutive tr a b.

(** The routing functions each router may use for a packet from [s] to node [nid]. *)
Definition minimal_policy dims conc (s nid : nat) (r : nat -> hdr -> outcome hdr) : Prop :=
  r = fun my h => torus_route dims conc my nid h.
Definition positive_policy dims conc (s nid : nat) (r : nat -> bool -> outcome bool) : Prop :=
  r = fun my h => positive_route dims conc my nid h.
Definition valiant_policy dims conc (s nid : nat) (r : nat -> vhdr -> outcome vhdr) : Prop :=
  exists inter, inter < prod dims /\ inter <> s /\ inter <> nid / conc /\
    r = fun my h => valiant_route dims conc inter my nid h.

(** Hops needed when every ring is travelled upwards only. *)
Definition positive_distance (dims : list nat) (s t : nat) : nat :=
  list_sum (map (fun '(d, (x, y)) => (y + d - x) mod d)
                (combine dims (combine (switch_coords dims s) (switch_coords dims t)))).

(** No set of packets can wait for each other in a circle. *)
Definition deadlock_free {A} (dep : A -> A -> Prop) : Prop :=
  forall c, ~ clos_trans A dep c c.
