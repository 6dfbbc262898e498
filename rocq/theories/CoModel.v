(* Communicators of the transport layer.
   /repo/sumi/communicator.h:55-320, /repo/sumi/communicator.cc:59-239 *)
From Coq Require Import ZArith List Bool Arith.
Import ListNotations.

(* The concrete communicator classes, with the fields their translations read.
   ShiftedCommunicator is declared over any parent (communicator.h:183-214). *)
Inductive comm : Type :=
| CGlobal (nproc : Z)                          (* communicator.h:138-160 *)
| CMap (local_to_global : list Z)              (* communicator.h:162-181 *)
| CShifted (dom : comm) (shift : Z)            (* communicator.h:183-214 *)
| CIndex (proc_list : list Z) (nproc : Z)      (* communicator.h:216-247 *)
| CRotate (nproc shift : Z)                    (* communicator.h:249-287 *)
| CSubrange (nproc start : Z).                 (* communicator.h:289-320 *)

(* MapCommunicator::MapCommunicator, communicator.cc:162-169, and the find of
   globalToCommRank, 178-187: later indices overwrite earlier ones; a missing rank
   aborts (None). *)
Fixpoint map_find (l : list Z) (idx : Z) (g : Z) : option Z :=
  match l with
  | [] => None
  | x :: r =>
    match map_find r (idx + 1)%Z g with
    | Some i => Some i
    | None => if Z.eqb x g then Some idx else None
    end
  end.

(* vector operator[]; an index outside the vector is undefined (None) *)
Definition vec_at (l : list Z) (i : Z) : option Z :=
  if (i <? 0)%Z then None else nth_error l (Z.to_nat i).

(* size of std::map global_to_local_: the number of different ranks *)
Definition map_size (l : list Z) : Z := Z.of_nat (length (nodup Z.eq_dec l)).

(* nproc(): communicator.cc:144-148, communicator.h:168-170, 194-196, 231-233,
   265-267, 299-301 *)
Fixpoint nproc (c : comm) : Z :=
  match c with
  | CGlobal n => n
  | CMap l => map_size l
  | CShifted d _ => nproc d
  | CIndex _ n => n
  | CRotate n _ => n
  | CSubrange n _ => n
  end.

(* commToGlobalRank: communicator.cc:150-154, 171-176; communicator.h:198-201,
   235-237, 269-271, 303-305.  % is C++ remainder, Z.rem; division by zero is
   excluded by the callers' nproc > 0. *)
Fixpoint to_global (c : comm) (r : Z) : option Z :=
  match c with
  | CGlobal _ => Some r
  | CMap l => vec_at l r
  | CShifted d s => to_global d (Z.rem (r + s) (nproc d))
  | CIndex l _ => vec_at l r
  | CRotate n s => Some (Z.rem (r + s) n)
  | CSubrange _ st => Some (r + st)%Z
  end.

(* globalToCommRank: communicator.cc:156-160, 178-187, 202-207 (aborts);
   communicator.h:203-207, 273-275, 307-309 *)
Fixpoint to_comm (c : comm) (g : Z) : option Z :=
  match c with
  | CGlobal _ => Some g
  | CMap l => map_find l 0 g
  | CShifted d s =>
    match to_comm d g with
    | Some r => Some (Z.rem (r - s + nproc d) (nproc d))
    | None => None
    end
  | CIndex _ _ => None
  | CRotate n s => Some (Z.rem (g + n - s) n)
  | CSubrange _ st => Some (g - st)%Z
  end.

(* The constructor's argument of the base class, i.e. myCommRank().
   ShiftedCommunicator, communicator.h:187-192 *)
Definition shifted_my_rank (dom_my : Z) (d : comm) (s : Z) : Z :=
  Z.rem (dom_my - s + nproc d) (nproc d).

(* RotateCommunicator, communicator.h:259-263, and SubrangeCommunicator, 293-297:
   the base class is initialised first, so globalToCommRank reads nproc_, shift_
   and start_ before they are set.  junk_* is what the memory held. *)
Definition rotate_my_rank (junk_n junk_s my_global : Z) : Z :=
  Z.rem (my_global + junk_n - junk_s) junk_n.
Definition subrange_my_rank (junk_st my_global : Z) : Z := (my_global - junk_st)%Z.

(* ---------- SMP communicators ---------- *)

(* SimTransport::init, sim_transport.cc:309-325: the ranks of the job on the same
   node, ascending because they are the keys of a std::map.  The set is left empty
   when the rank is alone, which has the same effect below as the singleton. *)
Definition neighbors (nranks : nat) (node : nat -> nat) (g : nat) : list nat :=
  filter (fun x => Nat.eqb (node x) (node g)) (seq 0 nranks).

(* globalRankSetIntersection: communicator.cc:189-200, 221-232; communicator.h:154;
   mpi_comm.cc:98-112.  A std::set, so ascending.  members is what commToGlobalRank
   enumerates. *)
Definition subset (nranks : nat) (node : nat -> nat) (members : list nat) (g : nat) : list nat :=
  filter (fun x => existsb (Nat.eqb x) members) (neighbors nranks node g).

(* communicator.cc:73-82: the loop that finds my_smp_rank *)
Fixpoint smp_loop (l : list nat) (me idx my_smp_rank : nat) : nat :=
  match l with
  | [] => my_smp_rank
  | x :: r => smp_loop r me (S idx) (if Nat.eqb x me then idx else my_smp_rank)
  end.

Definition smp_rank nranks node members g : nat :=
  smp_loop (subset nranks node members g) g 0 0.

(* communicator.cc:101-113: the loop over smp_ranks that collects the owners and
   my_owner_rank (-1 if this rank is not among them) *)
Fixpoint owner_loop (rank my_rank idx : nat) (my_owner : Z) (ranks : list (nat * nat))
  : list nat * Z :=
  match ranks with
  | [] => ([], my_owner)
  | (g, k) :: r =>
    if Nat.eqb k 0 then
      let '(l, m) := owner_loop (S rank) my_rank (S idx)
                       (if Nat.eqb rank my_rank then Z.of_nat idx else my_owner) r in
      (g :: l, m)
    else owner_loop (S rank) my_rank idx my_owner r
  end.

Definition count (k : nat) (l : list nat) : nat := length (filter (Nat.eqb k) l).

(* communicator.cc:123-130, with rank_counts filled by line 105.  The keys of
   rank_counts are the smp ranks seen, and 0. *)
Definition balanced_flag (seen : list nat) : bool :=
  forallb (fun k => Nat.eqb (count k seen) (count 0 seen)) seen.

Record view : Type := {
  v_smp : list nat;                    (* smp_comm_'s local_to_global_ *)
  v_smp_rank : nat;                    (* smp_comm_->myCommRank() *)
  v_owner : option (list nat * Z);     (* owner_comm_: proc_list_, my rank *)
  v_balanced : bool                    (* smp_balanced_ *)
}.

(* Communicator::createSmpCommunicator, communicator.cc:59-136, run by the rank with
   communicator rank r; smp_ranks is what the allgather of line 95 delivered. *)
Definition smp_view nranks node members (smp_ranks : list nat) (r : nat) : view :=
  let g := nth r members 0 in
  let k := smp_rank nranks node members g in
  {| v_smp := subset nranks node members g;
     v_smp_rank := k;
     v_owner := if Nat.eqb k 0
                then Some (owner_loop 0 r 0 (-1)%Z (combine members smp_ranks))
                else None;
     v_balanced := balanced_flag (if Nat.eqb k 0 then smp_ranks else []) |}.

(* Lines 65, 68 and 72: a rank alone on its node returns at once. *)
Definition joins nranks node members (g : nat) : bool :=
  1 <? length (subset nranks node members g).

Inductive outcome : Type :=
| Plain                 (* returned without SMP communicator *)
| Smp (v : view)
| Stuck.                (* waits in the allgather of lines 95-96 for ever *)

(* All ranks of the communicator call createSmpCommunicator.  The allgather spans
   the whole communicator, so it ends only if every rank enters it, and then holds
   each rank's contribution (C27). *)
Definition create nranks node members (r : nat) : outcome :=
  if joins nranks node members (nth r members 0) then
    if forallb (joins nranks node members) members
    then Smp (smp_view nranks node members (map (smp_rank nranks node members) members) r)
    else Stuck
  else Plain.
