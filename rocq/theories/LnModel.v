(** Model of job launching: node allocators, task mappers, the job launchers and
    the fan-out of start messages.

    Simplifications that hold throughout this file.
    - Node ids, ranks and sizes are natural numbers.  The code uses uint32_t for
      node ids and int for ranks and sizes; a negative "size" parameter is not
      modelled.
    - std::set<NodeId> is a strictly increasing list.
    - Exceptions and aborts are [None].
    - Random draws are a function [nat -> nat], an arbitrary one. *)
From Coq Require Import List Arith Bool ZArith.
Import ListNotations.

(** std::set operations used below. *)
Fixpoint smem (x : nat) (l : list nat) : bool :=
  match l with [] => false | y :: r => (x =? y) || smem x r end.

Fixpoint sinsert (x : nat) (l : list nat) : list nat :=
  match l with
  | [] => [x]
  | y :: r => if x <? y then x :: l else if x =? y then l else y :: sinsert x r
  end.

Fixpoint serase (x : nat) (l : list nat) : list nat :=
  match l with
  | [] => []
  | y :: r => if x =? y then r else y :: serase x r
  end.

Definition sinsert_all (xs l : list nat) : list nat := fold_left (fun a x => sinsert x a) xs l.

(** vector element write, sstmac/software/launch/random_task_mapper.cc:89 and
    std::swap in sstmac/common/rng.h:79. Out of range writes are undefined in the
    code and ignored here. *)
Fixpoint vset {A} (l : list A) (i : nat) (v : A) : list A :=
  match l, i with
  | [], _ => []
  | _ :: r, O => v :: r
  | x :: r, S i' => x :: vset r i' v
  end.

Definition vswap (l : list nat) (i j : nat) : list nat :=
  vset (vset l i (nth j l 0)) j (nth i l 0).

(** RNG::detail::deterministic_shuffle, sstmac/common/rng.h:71-81. The draw
    r(i+1) is value() % (i+1), rng.h:103-105. [i] counts down from n-1 to 1. *)
Fixpoint shuffle_from (draw : nat -> nat) (i : nat) (l : list nat) : list nat :=
  match i with
  | O => l
  | S i' => shuffle_from draw i' (vswap l i (draw i mod (i + 1)))
  end.

Definition shuffle (draw : nat -> nat) (l : list nat) : list nat :=
  shuffle_from draw (length l - 1) l.

(** FirstAvailableAllocation::allocate, first_available_allocation.cc:55-77. The
    while loop runs over node ids 0,1,2,...; [fuel] bounds it by the largest id,
    and running out of fuel (which is shown not to happen) gives [None]. *)
Fixpoint fa_loop (avail : list nat) (need fuel nid num : nat) (alloc : list nat)
  : option (list nat) :=
  if need <=? num then Some alloc
  else match fuel with
       | O => None
       | S f => if smem nid avail
                then fa_loop avail need f (S nid) (S num) (sinsert nid alloc)
                else fa_loop avail need f (S nid) num alloc
       end.

Definition first_available (nn : nat) (avail : list nat) : option (list nat) :=
  if length avail <? nn then None
  else fa_loop avail nn (S (list_max avail)) 0 0 [].

(** RandomAllocation::allocate, random_allocation.cc:73-93. *)
Definition random_alloc (draw : nat -> nat) (nn : nat) (avail : list nat) : option (list nat) :=
  if length avail <? nn then None
  else let v := shuffle draw avail in
       Some (sinsert_all (map (fun i => nth i v 0) (seq 0 nn)) []).

(** StrideAllocation::allocate, stride_allocation.cc:84-109. A stride of 0 is a
    division by zero in the code; [idx mod 0] is [idx] here, so stride 0 is
    excluded by [None]. *)
Fixpoint stride_loop (stride nn idx : nat) (rest alloc : list nat) : list nat :=
  match rest with
  | [] => alloc
  | x :: r =>
      if length alloc <? nn then
        stride_loop stride nn (S idx) r
          (if idx mod stride =? 0 then sinsert x alloc else alloc)
      else alloc
  end.

Definition stride_alloc (stride nn : nat) (avail : list nat) : option (list nat) :=
  match stride with
  | O => None
  | _ => let a := stride_loop stride nn 0 avail [] in
         if length a =? nn then Some a else None
  end.

(** GreedyDflyAllocation::allocate, greedy_dfly_allocation.cc:97-143. getUid(a,g) =
    g*a_+a, sstmac/hardware/topology/dragonfly.h. The three break statements are
    modelled by the tests for [left = 0]; [num_left] can become negative, so it
    is in Z. *)
Fixpoint greedy_router (avail nids : list nat) (left : Z) (acc : list nat) : Z * list nat :=
  match nids with
  | [] => (left, acc)
  | n :: r =>
      if smem n avail then
        let left' := (left - 1)%Z in
        let acc' := sinsert n acc in
        if (left' =? 0)%Z then (left', acc') else greedy_router avail r left' acc'
      else greedy_router avail r left acc
  end.

Fixpoint greedy_group (conc : nat) (avail sids : list nat) (left : Z) (acc : list nat)
  : Z * list nat :=
  match sids with
  | [] => (left, acc)
  | s :: r =>
      let (l1, a1) := greedy_router avail (seq (s * conc) conc) left acc in
      if (l1 =? 0)%Z then (l1, a1) else greedy_group conc avail r l1 a1
  end.

Fixpoint greedy_groups (na conc per_group : nat) (avail gs : list nat) (remaining : nat)
  (alloc : list nat) : nat * list nat :=
  match gs with
  | [] => (remaining, alloc)
  | g :: r =>
      let needed := min remaining per_group in
      let (left, nodes) :=
        greedy_group conc avail (seq (g * na) na) (Z.of_nat needed) [] in
      if (left =? 0)%Z
      then greedy_groups na conc per_group avail r (remaining - needed) (sinsert_all nodes alloc)
      else greedy_groups na conc per_group avail r remaining alloc
  end.

Definition greedy_dfly (na ng conc num_groups nn : nat) (avail : list nat) : option (list nat) :=
  match num_groups with
  | O => None
  | _ => let per := nn / num_groups + (if nn mod num_groups =? 0 then 0 else 1) in
         let (rem, alloc) := greedy_groups na conc per avail (seq 0 ng) nn [] in
         if 0 <? rem then None else Some alloc
  end.

(** CartAllocation::allocateDim and the explicit-size branch of allocate,
    cart_allocation.cc:90-124 and 156-159. [addr] is the topology's node_addr. *)
Fixpoint cart_coords (sizes offsets : list nat) : list (list nat) :=
  match sizes, offsets with
  | s :: ss, o :: os =>
      flat_map (fun i => map (cons (o + i)) (cart_coords ss os)) (seq 0 s)
  | _, _ => [[]]
  end.

Definition cart_alloc (addr : list nat -> nat) (sizes offsets : list nat) : list nat :=
  sinsert_all (map addr (cart_coords sizes offsets)) [].

(** NodeIdAllocation::allocate and readCoordinateFile, node_id_allocation.cc:72-126. *)
Definition node_id_alloc (num_nodes : nat) (file : list nat) (nn : nat) : option (list nat) :=
  if forallb (fun n => n <? num_nodes) file then
    if length file <? nn then None else Some (sinsert_all (firstn nn file) [])
  else None.

(** The allocators a request can name, launch_request.cc:97-98. [AFixed] stands
    for the hostname, coordinate and dumpi allocators: they return the nodes
    listed in a file whatever is available, hostname_allocation.cc:88-105. *)
Inductive allocator :=
| AFirst
| ARandom (draw : nat -> nat)
| AStride (stride : nat)
| AGreedy (na ng conc num_groups : nat)
| ACart (addr : list nat -> nat) (sizes offsets : list nat)
| ANodeId (num_nodes : nat) (file : list nat)
| AFixed (file : list nat).

Definition allocate (a : allocator) (nn : nat) (avail : list nat) : option (list nat) :=
  match a with
  | AFirst => first_available nn avail
  | ARandom d => random_alloc d nn avail
  | AStride s => stride_alloc s nn avail
  | AGreedy na ng conc k => greedy_dfly na ng conc k nn avail
  | ACart addr sizes offsets => Some (cart_alloc addr sizes offsets)
  | ANodeId n f => node_id_alloc n f nn
  | AFixed f => Some (sinsert_all f [])
  end.

(** TaskMapper::validateNproc, task_mapper.cc:64-94, for nproc >= 0. *)
Definition validate_nproc (ppn num_nodes nproc : nat) : option nat :=
  if num_nodes =? 0 then None
  else if ppn =? 0 then None
  else if ppn * num_nodes <? nproc then None
  else Some nproc.

(** BlockTaskMapper::mapRanks, block_task_mapper.cc:55-87. *)
Fixpoint block_loop (ppn nproc : nat) (nodes result : list nat) : list nat :=
  match nodes with
  | [] => result
  | addr :: r =>
      let this := if nproc <? length result + ppn then nproc - length result else ppn in
      block_loop ppn nproc r (result ++ repeat addr this)
  end.

Definition block_map (ppn nproc : nat) (nodes : list nat) : option (list nat) :=
  match validate_nproc ppn (length nodes) nproc with
  | None => None
  | Some np => Some (block_loop ppn np nodes [])
  end.

(** RoundRobinTaskMapper::mapRanks, round_robin_task_mapper.cc:51-68. *)
Definition rr_map (ppn nproc : nat) (nodes : list nat) : option (list nat) :=
  match validate_nproc ppn (length nodes) nproc with
  | None => None
  | Some np => Some (concat (repeat (firstn (np / ppn) nodes) ppn))
  end.

(** RandomTaskMapper::mapRanks, random_task_mapper.cc:70-107. The two loops that
    fill [result] are the same, over the shuffled or the ordered nodes. *)
Fixpoint fill (result : list nat) (from count v : nat) : list nat :=
  match count with
  | O => result
  | S c => fill (vset result from v) (S from) c v
  end.

Fixpoint random_loop (ppn nproc idx : nat) (nodes result : list nat) : list nat :=
  match nodes with
  | [] => result
  | n :: r =>
      let off := idx * ppn in
      let stop := min (off + ppn) nproc in
      random_loop ppn nproc (S idx) r (fill result off (stop - off) n)
  end.

Definition random_map (draw : nat -> nat) (smp : bool) (ppn nproc : nat) (nodes : list nat)
  : option (list nat) :=
  match validate_nproc ppn (length nodes) nproc with
  | None => None
  | Some np =>
      let blank := repeat 0 np in
      Some (if smp then random_loop ppn np 0 (shuffle draw nodes) blank
            else shuffle draw (random_loop ppn np 0 nodes blank))
  end.

(** NodeIdTaskMapper::mapRanks, node_id_task_mapper.cc:78-90. *)
Definition node_id_map (num_nodes : nat) (file : list nat) (nproc : nat) : option (list nat) :=
  if forallb (fun n => n <? num_nodes) file then
    if length file =? nproc then Some file else None
  else None.

(** The mappers a request can name, launch_request.cc:100-101. [MFixed] stands
    for the coordinate and dumpi mappers, which return one node per line of a
    file, coordinate_task_mapper.cc:67-85. *)
Inductive mapper :=
| MBlock
| MRoundRobin
| MRandom (draw : nat -> nat) (smp : bool)
| MNodeId (num_nodes : nat) (file : list nat)
| MFixed (file : list nat).

Definition map_ranks (m : mapper) (ppn nproc : nat) (nodes : list nat) : option (list nat) :=
  match m with
  | MBlock => block_map ppn nproc nodes
  | MRoundRobin => rr_map ppn nproc nodes
  | MRandom d smp => random_map d smp ppn nproc nodes
  | MNodeId n f => node_id_map n f nproc
  | MFixed f => Some f
  end.

(** The node_to_rank table, SoftwareLaunchRequest::indexAllocation,
    launch_request.cc:157-163. A node id outside the table is an out of bounds
    write in the code and ignored here. *)
Fixpoint node_to_rank (r : nat) (rank_to_node : list nat) (table : list (list nat))
  : list (list nat) :=
  match rank_to_node with
  | [] => table
  | n :: rest => node_to_rank (S r) rest (vset table n (nth n table [] ++ [r]))
  end.

(** A launch request, launch_request.cc:65-102. *)
Record request := Req {
  rq_aid : nat; rq_nproc : nat; rq_ppn : nat;
  rq_alloc : allocator; rq_map : mapper }.

(** SoftwareLaunchRequest::requestAllocation, launch_request.cc:168-179. ppn = 0 is
    a division by zero. *)
Definition nodes_needed (nproc ppn : nat) : nat :=
  nproc / ppn + (if nproc mod ppn =? 0 then 0 else 1).

Definition request_allocation (r : request) (avail : list nat) : option (list nat) :=
  match rq_ppn r with
  | O => None
  | _ => allocate (rq_alloc r) (nodes_needed (rq_nproc r) (rq_ppn r)) avail
  end.

(** What the launcher did, in order: the observable history. *)
Inductive happened :=
| Started (aid : nat) (allocation placement : list nat)
| Stopped (aid : nat).

(** JobLauncher's state: available_ (job_launcher.h), the global task mappings of
    launched jobs (task_mapping.cc:51-53), and the exclusive launcher's
    pending_requests_ and active_job_ (job_launcher.h:221-222). [history] is not in
    the code: it records what was done. *)
Record lstate := LSt {
  available : list nat;
  mappings : list (nat * list nat);
  pending : list request;
  active : option nat;
  history : list happened }.

(** JobLauncher::JobLauncher, job_launcher.cc:71-81. *)
Definition linit (num_nodes : nat) : lstate := LSt (seq 0 num_nodes) [] [] None [].

(** The erase loop of DefaultJoblauncher::handleLaunchRequest,
    job_launcher.cc:209-216. *)
Fixpoint take_nodes (alloc avail : list nat) : option (list nat) :=
  match alloc with
  | [] => Some avail
  | n :: r => if smem n avail then take_nodes r (serase n avail) else None
  end.

(** DefaultJoblauncher::handleLaunchRequest, job_launcher.cc:198-218, followed by
    JobLauncher::satisfyLaunchRequest, job_launcher.cc:184-197. The mapping is
    stored under the application id; the reference counts that decide when it is
    forgotten (task_mapping.cc:114-134) are simplified to: stored at the launch,
    forgotten at the stop. *)
Definition launch (s : lstate) (r : request) : option lstate :=
  match request_allocation r (available s) with
  | None => None
  | Some alloc =>
      match take_nodes alloc (available s) with
      | None => None
      | Some av =>
          match map_ranks (rq_map r) (rq_ppn r) (rq_nproc r) alloc with
          | None => None
          | Some m => Some (LSt av ((rq_aid r, m) :: mappings s) (pending s) (active s)
                              (history s ++ [Started (rq_aid r) alloc m]))
          end
      end
  end.

Fixpoint lookup (aid : nat) (l : list (nat * list nat)) : option (list nat) :=
  match l with
  | [] => None
  | (a, m) :: r => if a =? aid then Some m else lookup aid r
  end.

Fixpoint forget (aid : nat) (l : list (nat * list nat)) : list (nat * list nat) :=
  match l with
  | [] => []
  | (a, m) :: r => if a =? aid then r else (a, m) :: forget aid r
  end.

(** JobLauncher::cleanupApp, job_launcher.cc:162-182. *)
Definition cleanup (s : lstate) (aid : nat) : option lstate :=
  match lookup aid (mappings s) with
  | None => None
  | Some m => Some (LSt (sinsert_all m (available s)) (forget aid (mappings s))
                      (pending s) (active s) (history s ++ [Stopped aid]))
  end.

(** Events the launcher reacts to: incomingLaunchRequest and incomingRequest,
    job_launcher.cc:83-99. *)
Inductive levent := ELaunch (r : request) | EStop (aid : nat).

(** DefaultJoblauncher, job_launcher.cc:198-224. *)
Definition default_step (s : lstate) (e : levent) : option lstate :=
  match e with
  | ELaunch r => launch s r
  | EStop aid => cleanup s aid
  end.

(** ExclusiveJoblauncher::handleLaunchRequest, job_launcher.cc:226-236. *)
Definition exclusive_launch (s : lstate) (r : request) : option lstate :=
  match active s with
  | None => launch (LSt (available s) (mappings s) (pending s) (Some (rq_aid r)) (history s)) r
  | Some _ => Some (LSt (available s) (mappings s) (pending s ++ [r]) (active s) (history s))
  end.

(** ExclusiveJoblauncher, job_launcher.cc:226-248. *)
Definition exclusive_step (s : lstate) (e : levent) : option lstate :=
  match e with
  | ELaunch r => exclusive_launch s r
  | EStop aid =>
      match cleanup s aid with
      | None => None
      | Some s1 =>
          match pending s1 with
          | [] => Some (LSt (available s1) (mappings s1) [] None (history s1))
          | next :: rest =>
              exclusive_launch (LSt (available s1) (mappings s1) rest None (history s1)) next
          end
      end
  end.

Fixpoint lrun (step : lstate -> levent -> option lstate) (s : lstate) (es : list levent)
  : option lstate :=
  match es with
  | [] => Some s
  | e :: r => match step s e with None => None | Some s' => lrun step s' r end
  end.

(** OutcastIterator::forward_to and pvt_forward_to, job_launcher.h:231-260. The
    block size is [2^k]; the recursion is on [k]. *)
Fixpoint pow2_at_least (fuel p n : nat) : nat :=
  match fuel with
  | O => 0
  | S f => if p <? n then S (pow2_at_least f (p * 2) n) else 0
  end.

Fixpoint fwd (me n k off : nat) : list nat :=
  match k with
  | O => []
  | S k' =>
      let half := 2 ^ k' in
      let role := me mod 2 ^ k in
      let midpoint := off + half in
      (if role =? 0 then if midpoint <? n then [midpoint] else [] else [])
      ++ (if midpoint <=? me then fwd me n k' midpoint else fwd me n k' off)
  end.

Definition forward_to (me n : nat) : list nat := fwd me n (pow2_at_least n 1 n) 0.

(** The start-up protocol: JobLauncher sends a start message to rank 0
    (job_launcher.cc:194, operating_system.cc:652-656); a rank that gets a start
    message forwards it to [forward_to] and starts (app_launcher.cc:69-112,
    operating_system.cc:657-683). The network may deliver messages in any order. *)
Record ostate := OSt { in_flight : list nat; started : list nat }.

Definition oinit : ostate := OSt [0] [].

Inductive ostep (n : nat) : ostate -> ostate -> Prop :=
| ostep_deliver : forall a r b st,
    ostep n (OSt (a ++ r :: b) st) (OSt (a ++ b ++ forward_to r n) (r :: st)).

Inductive oreach (n : nat) : ostate -> Prop :=
| oreach_init : oreach n oinit
| oreach_step : forall s s', oreach n s -> ostep n s s' -> oreach n s'.

(** IncastIterator::config and pvt_config, job_launcher.h:274-314: (to_send written,
    to_recv written, num_to_send, num_to_recv). Both branches advance the same
    counter and both write at it, so the arrays are lists of (index, value). *)
Fixpoint incast (me n k off num_send : nat) : list (nat * nat) * list (nat * nat) * nat :=
  match k with
  | O => ([], [], num_send)
  | S k' =>
      let half := 2 ^ k' in
      let role := me mod 2 ^ k in
      let midpoint := off + half in
      let '(snd1, rcv1, c) :=
        if role =? 0 then
          if midpoint <? n then ([], [(num_send, midpoint)], S num_send) else ([], [], num_send)
        else if role =? half then ([(num_send, off)], [], S num_send)
        else ([], [], num_send) in
      let '(snd2, rcv2, c2) :=
        if midpoint <=? me then incast me n k' midpoint c else incast me n k' off c in
      (snd1 ++ snd2, rcv1 ++ rcv2, c2)
  end.

(** num_to_recv is set to 0 and never changed. *)
Definition incast_config (me n : nat) : list (nat * nat) * list (nat * nat) * nat * nat :=
  (incast me n (pow2_at_least n 1 n) 0 0, 0).
