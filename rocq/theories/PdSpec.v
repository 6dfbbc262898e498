(* What is said about point-to-point messages: the rules for programs, and what completed
   sends and receives mean, in terms of the calls of the program and the contents of its
   buffers. *)
From Coq Require Import List ZArith Bool Arith.
From Verif Require Import DtModel DtSpec DtProof PdModel.
Import ListNotations.
Local Open Scope Z_scope.

(* A buffer of a send, or of a receive, that is not complete *)
Definition sending (b : nat) (h : list pobs) : Prop :=
  exists f d n src, In (OSend f b d n src) h /\ ~ In (OSendDone f) h.
Definition receiving (b : nat) (h : list pobs) : Prop :=
  exists r d n dst, In (ORecv r b d n dst) h /\ forall f out, ~ In (ORecvDone r f out) h.

(* The rules of MPI for the program: buffers of pending operations are left alone, and a
   buffer is received into once at a time. *)
Fixpoint obeys (h : list pobs) : Prop :=
  match h with
  | [] => True
  | e :: r => obeys r /\
    match e with
    | OWrite b _ _ | ORecv _ b _ _ _ => ~ sending b r /\ ~ receiving b r
    | OSend _ b _ _ _ => ~ receiving b r
    | _ => True
    end
  end.
(* Types have no empty blocks. *)
Definition types_ok (h : list pobs) : Prop :=
  (forall f b d n src, In (OSend f b d n src) h -> blocks_pos d) /\
  (forall r b d n dst, In (ORecv r b d n dst) h -> blocks_pos d).
(* Messages fit the receives they are matched with. *)
Definition fits (h : list pobs) : Prop :=
  forall r f b1 d1 n1 src b2 d2 n2 dst, In (OMatch r f) h ->
    In (OSend f b1 d1 n1 src) h -> In (ORecv r b2 d2 n2 dst) h ->
    size_of d1 n1 <= size_of d2 n2 /\ (mcontig (build d2) = true \/ (n1 <= n2)%nat).
Definition rules (h : list pobs) : Prop := obeys h /\ types_ok h /\ fits h.

(* Memory that holds the packed elements *)
Definition packed_as (d : dt) (n : nat) (src m : mem Z) : Prop :=
  exists junk, forall x, 0 <= x < size_of d n -> m x = pack_with (bytes_moved (build d) n) src junk x.
(* [out] is [dst] after receiving, as type d2, n1 elements of type d1 sent from [src] *)
Definition received (d1 : dt) (n1 : nat) (src : mem Z) (d2 : dt) (dst out : mem Z) : Prop :=
  exists pk, packed_as d1 n1 src pk /\ forall x, out x =
    if mcontig (build d2) then (if (0 <=? x) && (x <? size_of d1 n1) then pk x else dst x)
    else unpack_with (packn (build d2) n1) pk dst x.

(* The buffer of a receive, and the contents of a buffer according to the history *)
Fixpoint buffer_of (r : nat) (h : list pobs) : option nat :=
  match h with
  | [] => None
  | ORecv r' b _ _ _ :: t => if Nat.eqb r' r then Some b else buffer_of r t
  | _ :: t => buffer_of r t
  end.
Fixpoint replay (user : nat -> mem Z) (h : list pobs) (b : nat) : mem Z :=
  match h with
  | [] => user b
  | OWrite b' x v :: t => if Nat.eqb b' b then mset (replay user t b) x v else replay user t b
  | ORecvDone r _ out :: t =>
    match buffer_of r t with Some b' => if Nat.eqb b' b then out else replay user t b | None => replay user t b end
  | _ :: t => replay user t b
  end.

(* Completions *)
Definition sends_done (h : list pobs) : list nat := flat_map (fun e => match e with OSendDone f => [f] | _ => [] end) h.
Definition recvs_done (h : list pobs) : list nat := flat_map (fun e => match e with ORecvDone r _ _ => [r] | _ => [] end) h.
Definition flows_matched (h : list pobs) : list nat := flat_map (fun e => match e with OMatch _ f => [f] | _ => [] end) h.

(* Nothing is on its way. *)
Definition quiet (s : pst) : Prop := forall it, In it (s_items s) -> fst it = Unexp.

(* Moves of messages one after the other *)
Inductive settle (c : pcfg) : nat -> list pobs -> pst -> list pobs -> pst -> Prop :=
| se_done : forall h s, settle c 0 h s h s
| se_move : forall k h s l it r o s1 h2 s2, s_items s = l ++ it :: r -> fst it <> Unexp ->
    moves_on c it (l ++ r) s = Next o s1 -> settle c k (o ++ h) s1 h2 s2 -> settle c (S k) h s h2 s2.
