(** Collectives on a communicator with SMP sub-communicators: CollectiveEngine::allreduce,
    alltoall and allgather, sumi/sim_transport.cc:631-672, 776-819, 833-885. The call
    builds several collectives, links them with setSubsequent (sumi/collective.h:142-155)
    and starts one of them; whenever one is done the next one is started
    (startCollective, 971-977; incoming, 1046-1051).
    SIMPLIFIED: buffers that are not null; ints and buffers are unbounded; every
    collective of the chain has a tag of its own (1<<28, 2<<28, 3<<28), so their messages
    are kept apart (C54) and each of them runs on its own. *)
From Coq Require Import List Arith ZArith Bool.
From Verif Require Import CoModel RdModel AgModel AaModel PhModel BcModel GaModel ArModel ShModel ArProp.
Import ListNotations.

(** The collectives a chain is made of; [KFlat] is the one over the whole communicator. *)
Inductive stage :=
| KFlat                          (* 816-817, 882-883 *)
| KCollectIn | KCollectOut       (* allgather within the node, among the owners: 858-870 *)
| KGatherIn | KSwapOut           (* BtreeGather within the node, alltoall among owners: 796-804 *)
| KReduceIn | KReduceOut         (* WilkeHalvingAllreduce: 643-656 *)
| KBcast (root cnt : nat)        (* BinaryTreeBcastCollective: 663-664, 809-810, 875-876 *)
| KNothing.                      (* DoNothingCollective, collective.h:175-191 *)

(** A collective object with its subsequent_ pointer; objects are named by their place. *)
Record cobj := { co_do : stage; co_next : option nat }.

(** setSubsequent, collective.h:146-148. *)
Definition link (h : list cobj) (i j : nat) : list cobj :=
  match nth_error h i with
  | Some o => firstn i h ++ {| co_do := co_do o; co_next := Some j |} :: skipn (S i) h
  | None => h
  end.

(** What runs if collective [i] is started: it, then its subsequent, and so on. *)
Fixpoint chain (fuel : nat) (h : list cobj) (i : nat) : list stage :=
  match fuel with
  | 0 => []
  | S f => match nth_error h i with
           | None => []
           | Some o => co_do o :: match co_next o with Some j => chain f h j | None => [] end
           end
  end.

Definition objs (l : list stage) : list cobj := map (fun k => {| co_do := k; co_next := None |}) l.

Definition has_owner (v : view) : bool := match v_owner v with Some _ => true | None => false end.

(** CollectiveEngine::allgather, 852-884, at a rank that sees [v]. *)
Definition allgather_stages (n ne : nat) (v : view) : list stage :=
  if v_balanced v then
    let h := objs ([KCollectIn] ++ (if has_owner v then [KCollectOut] else []) ++ [KBcast 0 (n * ne); KNothing]) in
    let h := if has_owner v then link h 0 1 else h in
    let prev := if has_owner v then 1 else 0 in
    let h := link h prev (S prev) in
    let h := link h (S prev) (S (S prev)) in
    chain (length h) h 0
  else [KFlat].

(** CollectiveEngine::alltoall, 791-818. *)
Definition alltoall_stages (n ne : nat) (v : view) : list stage :=
  if v_balanced v then
    let h := objs ([KGatherIn] ++ (if has_owner v then [KSwapOut] else []) ++ [KBcast 0 (n * ne); KNothing]) in
    let h := if has_owner v then link h 0 1 else h in
    let prev := if has_owner v then 1 else 0 in
    let h := link h prev (S prev) in
    let h := link h (S prev) (S (S prev)) in
    chain (length h) h 0
  else [KFlat].

(** CollectiveEngine::allreduce, 640-671, at communicator rank [r]: [root] is the global
    rank of the node's first rank (646), and what is started (671) is [coll], which 667
    made the last collective of the chain. [None]: the abort of 649-651. *)
Definition allreduce_stages (ne : nat) (r : nat) (v : view) : option (list stage) :=
  let root := nth 0 (v_smp v) 0 in
  let mine := Nat.eqb r root in
  if mine && negb (has_owner v) then None
  else
    let h := objs ([KReduceIn] ++ (if mine then [KReduceOut] else []) ++ [KBcast root ne; KNothing]) in
    let h := if mine then link h 0 1 else h in
    let prev := if mine then 1 else 0 in
    let h := link h prev (S prev) in
    let h := link h (S prev) (S (S prev)) in
    Some (chain (length h) h (S (S prev))).

Section Sm.
Context {T : Type}.
Variables (nranks : nat) (node : nat -> nat) (members : list nat) (ne : nat).
Variable op : T -> T -> T.
(** Contribution of each global rank; contents of a gather's workspace (gather.cc:79-81);
    contents of the alltoall's temporary buffers (alltoall.cc:83-86). *)
Variables (src : nat -> nat -> T) (work : nat -> nat -> T) (aux : nat -> T).

(** What communicator rank [r] knows once createSmpCommunicator has returned (C87). *)
Definition seen (r : nat) : view :=
  smp_view nranks node members (map (smp_rank nranks node members) members) r.

(** The result buffer of a rank and intraDst (795, 854). *)
Record bufs := { b_dst : nat -> T; b_tmp : nat -> T }.

(** Participants of a stage, as global ranks. *)
Definition party (v : view) (k : stage) : list nat :=
  match k with
  | KFlat => members
  | KCollectOut | KSwapOut | KReduceOut => match v_owner v with Some (l, _) => l | None => [] end
  | KCollectIn | KGatherIn | KReduceIn | KBcast _ _ => v_smp v
  | KNothing => []
  end.

(** Rank of the caller in the communicator of the stage. *)
Definition place (r : nat) (v : view) (k : stage) : nat :=
  match k with
  | KFlat => r
  | KCollectOut | KSwapOut | KReduceOut => match v_owner v with Some (_, i) => Z.to_nat i | None => 0 end
  | _ => v_smp_rank v
  end.

(** Allgathers, alltoalls and allreduces. *)
Definition dense (k : stage) : bool :=
  match k with KGatherIn | KBcast _ _ | KNothing => false | _ => true end.

(** [post] is what rank [r] (global rank [g]) can have after stage [k] if every rank [q]
    entered the stage with [pre q]. [joined q]: rank [q] runs the stage at all. A rank
    only gets through a dense collective if all its participants run it (C78 for the
    allgather). The engine learns that a collective is done from a message that reaches it
    (DagCollective::recv, sumi/collective.cc:165-194), so a collective without rounds is
    never reported as done (startCollective, sim_transport.cc:963-970). *)
Definition stage_ends (r : nat) (v : view) (k : stage) (joined : nat -> Prop)
  (pre : nat -> bufs) (post : bufs) : Prop :=
  let g := nth r members 0 in
  let n := length (party v k) in
  let i := place r v k in
  let at_ j := nth j (party v k) 0 in
  let s := length (v_smp v) in
  (if dense k then forall q, In q (party v k) -> joined q else True) /\
  match k with
  | KFlat => exists x c, let sd := bruck_sched n ne (fun j => b_dst (pre (at_ j))) (fun j => Some (src (at_ j))) in
      0 < sc_nr sd /\ rexec sd x c /\ l_rnd (r_loc c i) = sc_nr sd /\
      post = {| b_dst := bruck_finalize n ne i (l_mem (r_loc c i)); b_tmp := b_tmp (pre g) |}
  | KCollectIn => exists x c, let sd := bruck_sched n ne (fun j => b_tmp (pre (at_ j))) (fun j => Some (src (at_ j))) in
      0 < sc_nr sd /\ rexec sd x c /\ l_rnd (r_loc c i) = sc_nr sd /\
      post = {| b_dst := b_dst (pre g); b_tmp := bruck_finalize n ne i (l_mem (r_loc c i)) |}
  | KCollectOut => exists x c, let sd := bruck_sched n (s * ne) (fun j => b_dst (pre (at_ j))) (fun j => Some (b_tmp (pre (at_ j)))) in
      0 < sc_nr sd /\ rexec sd x c /\ l_rnd (r_loc c i) = sc_nr sd /\
      post = {| b_dst := bruck_finalize n (s * ne) i (l_mem (r_loc c i)); b_tmp := b_tmp (pre g) |}
  | KGatherIn => exists x c, let pg := gather_prog n 0 (s * ne) (fun j => src (at_ j))
                                         (fun j => if Nat.eqb j 0 then b_tmp (pre (at_ j)) else work (at_ j)) in
      pexec pg x c /\ pdone (p_proc c i) /\
      post = {| b_dst := b_dst (pre g); b_tmp := if Nat.eqb i 0 then w_mem (p_proc c i) else b_tmp (pre g) |}
  | KSwapOut => exists x c, let sd := aa_sched n (s * ne) (fun j => b_dst (pre (at_ j))) (fun j => b_tmp (pre (at_ j))) aux in
      0 < sc_nr sd /\ rexec sd x c /\ l_rnd (r_loc c i) = sc_nr sd /\
      post = {| b_dst := aa_finalize n (s * ne) i (a_res (l_mem (r_loc c i))); b_tmp := b_tmp (pre g) |}
  | KReduceIn => exists x h, ar_run op n ne (fun j => b_dst (pre (at_ j))) (fun j => Some (src (at_ j))) x h /\
      0 < log2_of n /\ ar_done n h i /\ post = {| b_dst := h_mem h i; b_tmp := b_tmp (pre g) |}
  | KReduceOut => exists x h, ar_run op n ne (fun j => b_dst (pre (at_ j))) (fun _ => None) x h /\
      0 < log2_of n /\ ar_done n h i /\ post = {| b_dst := h_mem h i; b_tmp := b_tmp (pre g) |}
  | KBcast root cnt => exists x c, pexec (bcast_prog n root cnt (fun j => b_dst (pre (at_ j)))) x c /\
      pdone (p_proc c i) /\ post = {| b_dst := w_mem (p_proc c i); b_tmp := b_tmp (pre g) |}
  | KNothing => post = pre g
  end.

(** One rank goes through its stages, [pre k] and [post k] being what all ranks have
    before and after stage [k]. *)
Fixpoint walk (stages : nat -> list stage) (pre post : stage -> nat -> bufs) (r : nat) (l : list stage) (cur fin : bufs) : Prop :=
  match l with
  | [] => fin = cur
  | k :: l' =>
    pre k (nth r members 0) = cur /\
    stage_ends r (seen r) k (fun q => exists r', r' < length members /\ nth r' members 0 = q /\ In k (stages r'))
      (pre k) (post k (nth r members 0)) /\
    walk stages pre post r l' (post k (nth r members 0)) fin
  end.

(** The collective has ended at all ranks: they began with [ini] and have [fin]. *)
Definition smp_ended (stages : nat -> list stage) (ini fin : nat -> bufs) : Prop :=
  exists pre post, forall r, r < length members ->
    walk stages pre post r (stages r) (ini (nth r members 0)) (fin (nth r members 0)).

Definition smp_allgather_ended : (nat -> bufs) -> (nat -> bufs) -> Prop :=
  smp_ended (fun r => allgather_stages (length members) ne (seen r)).
(** The unbalanced branch of alltoall (816) is not modelled: [KFlat] stands for the
    allgather over all ranks, so this is only meant for balanced communicators. *)
Definition smp_alltoall_ended : (nat -> bufs) -> (nat -> bufs) -> Prop :=
  smp_ended (fun r => alltoall_stages (length members) ne (seen r)).
Definition smp_allreduce_ended (ini fin : nat -> bufs) : Prop :=
  (forall r, r < length members -> allreduce_stages ne r (seen r) <> None) /\
  smp_ended (fun r => match allreduce_stages ne r (seen r) with Some l => l | None => [] end) ini fin.
End Sm.
Arguments bufs : clear implicits.
