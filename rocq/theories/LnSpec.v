(** What the launch properties mean, independent of how the code computes. *)
From Coq Require Import List Arith.
From Verif Require Import LnModel.
Import ListNotations.

(** Every one of [nproc] ranks has a node of the allocation, and no node has more
    than [ppn] of them. *)
Definition placed (nproc ppn : nat) (nodes m : list nat) : Prop :=
  length m = nproc /\
  (forall r, r < nproc -> In (nth r m 0) nodes) /\
  (forall n, count_occ Nat.eq_dec m n <= ppn).

(** Job [aid] was started on [alloc] with rank placement [m] and has not stopped. *)
Definition running (h : list happened) (aid : nat) (alloc m : list nat) : Prop :=
  exists before after, h = before ++ Started aid alloc m :: after /\ ~ In (Stopped aid) after.

Definition disjoint (a b : list nat) : Prop := forall x, In x a -> ~ In x b.

(** The application ids of the launch events. JobLauncher::addLaunchRequests
    numbers requests 1, 2, 3, ... (job_launcher.cc:113-160), so they are distinct. *)
Definition requested (es : list levent) : list request :=
  flat_map (fun e => match e with ELaunch r => [r] | EStop _ => [] end) es.

Definition started_ids (h : list happened) : list nat :=
  flat_map (fun e => match e with Started a _ _ => [a] | Stopped _ => [] end) h.

(** A mapper that places ranks only on nodes of the allocation. *)
Definition stays_inside (m : mapper) : Prop :=
  match m with MBlock | MRoundRobin | MRandom _ _ => True | _ => False end.

(** A request that uses every node it is given: an allocator that returns the
    number of nodes asked for, and a mapper that fills them. *)
Definition uses_all (r : request) : Prop :=
  match rq_alloc r with AFirst | ARandom _ | AStride _ | AGreedy _ _ _ _ => True | _ => False end /\
  match rq_map r with MBlock | MRandom _ _ => True
                    | MRoundRobin => rq_nproc r mod rq_ppn r = 0 | _ => False end /\
  0 < rq_nproc r.
