(** Vocabulary for the topologies given by connection lists. *)
From Coq Require Import List ZArith Arith.
From Verif Require Import TorusModel NetModel TorusSpec.
Import ListNotations.

(** Every cable has its opposite: same two ports, the other way round. *)
Definition cables_paired (conns : nat -> list conn) (n : nat) : Prop :=
  forall s c, s < n -> In c (conns s) ->
  exists s' c', c_src c = s /\ c_dst c = Z.of_nat s' /\ s' < n /\ In c' (conns s') /\
    c_dst c' = Z.of_nat s /\ c_outport c' = c_inport c /\ c_inport c' = c_outport c.

(** No two cables leave by the same port of a switch, and no two arrive on the same port. *)
Definition ports_unique (conns : nat -> list conn) (n : nat) : Prop :=
  (forall s c c', s < n -> In c (conns s) -> In c' (conns s) -> c_outport c = c_outport c' -> c = c') /\
  (forall s1 s2 c1 c2, s1 < n -> s2 < n -> In c1 (conns s1) -> In c2 (conns s2) ->
     c_dst c1 = c_dst c2 -> c_inport c1 = c_inport c2 -> s1 = s2 /\ c1 = c2).

(** A path of [k] cables leads from [s] to [t]. *)
Inductive ghops (conns : nat -> list conn) : nat -> nat -> nat -> Prop :=
| ghops_0 : forall s, ghops conns 0 s s
| ghops_S : forall k s c s' t, In c (conns s) -> c_dst c = Z.of_nat s' -> ghops conns k s' t ->
    ghops conns (S k) s t.

(** Channel dependency, as in TorusSpec. *)
Definition gwaits_for {H} (next : nat -> nat -> option nat) (n nodes : nat) (h0 : H)
  (policy : nat -> nat -> (nat -> H -> outcome H) -> Prop) (a b : chan) : Prop :=
  exists s nid route fuel tr e p,
    s < n /\ nid < nodes /\ policy s nid route /\
    gwalk next route fuel s h0 = Some (tr, e, p) /\ consecutive tr a b.
