(** Model of the partitioning of switches over ranks and threads,
    sstmac/backends/common/sim_partition.cc. int is nat (non-negative, no overflow). *)
From Coq Require Import List Arith Bool.
Import ListNotations.

(** The (rank, thread) of a worker number, sim_partition.cc:154-157. *)
Definition worker_to (nthread worker : nat) : nat * nat := (worker / nthread, worker mod nthread).

(** Switches per worker, rounded up, sim_partition.cc:147-150 and 195-199. *)
Definition per_worker_up (n nworker : nat) : nat :=
  if n mod nworker =? 0 then n / nworker else S (n / nworker).

(** BlockPartition::partitionSwitches, sim_partition.cc:143-159: the entries of
    switch_to_lpid_ and switch_to_thread_ for switch i. *)
Definition block_part (nsw nproc nthread i : nat) : nat * nat :=
  worker_to nthread (i / per_worker_up nsw (nproc * nthread)).

(** SerialPartition, sim_partition.cc:85-103. *)
Definition serial_part (i : nat) : nat * nat := (0, 0).

Fixpoint set_nth {A} (l : list A) (i : nat) (x : A) : list A :=
  match l, i with
  | [], _ => []
  | _ :: r, O => x :: r
  | y :: r, S i' => y :: set_nth r i' x
  end.

(** The arrays after the loop "for i < n: arr[i] = worker_to (i / per)". *)
Definition fill (nthread per n : nat) (arr : list (option (nat * nat))) : list (option (nat * nat)) :=
  fold_left (fun a i => set_nth a i (Some (worker_to nthread (i / per)))) (seq 0 n) arr.

(** OccupiedBlockPartition: the constructor's checks, sim_partition.cc:179-185, and
    partitionSwitches, 188-219. An entry is None while unassigned (the arrays come
    uninitialised from new[], 139-140). Result None: the program stops (input error, or
    division by zero at 213). *)
Definition occ_part (nsw occupied nproc nthread : nat) : option (list (option (nat * nat))) :=
  if (occupied <? nproc) || (nsw <? occupied) then None
  else
    let nworker := nproc * nthread in
    let unoccupied := nsw - occupied in
    let arr := fill nthread (per_worker_up occupied nworker) occupied (repeat None nsw) in
    let per := unoccupied / nworker in
    if (per =? 0) && (0 <? unoccupied) then None
    else Some (fill nthread per unoccupied arr).
