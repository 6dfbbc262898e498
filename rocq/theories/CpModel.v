(* The compute schedulers that hand out cores to threads.
   /repo/sstmac/software/process/simple_compute_scheduler.cc, cpuset_compute_scheduler.cc,
   thread.h *)
From Coq Require Import List ZArith Bool Arith.
Import ListNotations.

(* Threads are numbers.  A request is a number of cores and a thread. *)
Definition request : Type := (nat * nat)%type.

Definition upd_at {A} (f : nat -> A) (t : nat) (x : A) : nat -> A := fun i => if Nat.eqb i t then x else f i.

Fixpoint pop_n {A} (n : nat) (l : list A) : list A :=
  match n with O => l | S k => pop_n k (removelast l) end.

Fixpoint without {A} (k : nat) (l : list A) : list A :=
  match l, k with
  | [], _ => []
  | _ :: r, O => r
  | x :: r, S j => x :: without j r
  end.

(* ---------- SimpleComputeScheduler ---------- *)

(* ncore_active_, active_cores_ of every thread (thread.h:451), pending_threads_
   (simple_compute_scheduler.h:76); s_woken are the threads whose unblocking is on its way:
   OperatingSystem::unblock posts an event, because the releasing thread is running
   (operating_system.cc:410-418, 514-524). *)
Record simple : Type := {
  s_active : nat; s_held : nat -> list nat; s_pend : list request; s_woken : list request }.
Definition simple0 : simple := {| s_active := 0; s_held := fun _ => []; s_pend := []; s_woken := [] |}.

(* The body of reserveCores from the test of the while loop on,
   simple_compute_scheduler.cc:63-88: the thread waits, or takes the next core numbers. *)
Definition s_try (nc : nat) (s : simple) (n t : nat) : simple :=
  if nc <? n + s_active s
  then {| s_active := s_active s; s_held := s_held s; s_pend := s_pend s ++ [(n, t)]; s_woken := s_woken s |}
  else {| s_active := s_active s + n;
          s_held := upd_at (s_held s) t (s_held s t ++ seq (s_active s) n);
          s_pend := s_pend s; s_woken := s_woken s |}.

(* The search of releaseCores, simple_compute_scheduler.cc:105-117 *)
Fixpoint s_find (free : nat) (l : list request) : option (request * list request) :=
  match l with
  | [] => None
  | r :: l' => if fst r <=? free then Some (r, l')
               else match s_find free l' with Some (x, l2) => Some (x, r :: l2) | None => None end
  end.

(* releaseCores, simple_compute_scheduler.cc:91-121 *)
Definition s_release (nc : nat) (s : simple) (n t : nat) : simple :=
  let active := s_active s - n in
  let held := upd_at (s_held s) t (pop_n n (s_held s t)) in
  match s_find (nc - active) (s_pend s) with
  | Some (r, l) => {| s_active := active; s_held := held; s_pend := l; s_woken := s_woken s ++ [r] |}
  | None => {| s_active := active; s_held := held; s_pend := s_pend s; s_woken := s_woken s |}
  end.

(* A thread that waits or is being woken does nothing. *)
Definition busy (l : list request) (t : nat) : bool := existsb (fun r => Nat.eqb (snd r) t) l.

(* A thread reserves, releases cores it has, or is woken. *)
Inductive op : Type := Reserve (n t : nat) | Release (n t : nat) | Wake (k : nat).

Definition s_step (nc : nat) (s : simple) (o : op) : option simple :=
  match o with
  | Reserve n t => if busy (s_pend s ++ s_woken s) t then None else Some (s_try nc s n t)
  | Release n t =>
    if busy (s_pend s ++ s_woken s) t then None
    else if n <=? length (s_held s t) then Some (s_release nc s n t) else None
  | Wake k =>
    match nth_error (s_woken s) k with
    | None => None
    | Some (n, t) =>
      Some (s_try nc {| s_active := s_active s; s_held := s_held s; s_pend := s_pend s;
                        s_woken := without k (s_woken s) |} n t)
    end
  end.

Fixpoint s_run (nc : nat) (s : simple) (l : list op) : option simple :=
  match l with
  | [] => Some s
  | o :: r => match s_step nc s o with Some s1 => s_run nc s1 r | None => None end
  end.

(* ---------- CpusetComputeScheduler ---------- *)

Local Open Scope Z_scope.

(* 1<<i as a 64-bit mask.  The shift is done on int: for i = 31 it gives INT_MIN, which is
   sign extended; from 32 on it is undefined behaviour, taken here as what x86 does, the
   shift count modulo 32. *)
Definition bit (i : nat) : Z :=
  let k := (i mod 32)%nat in
  if Nat.eqb k 31 then 2 ^ 64 - 2 ^ 31 else 2 ^ Z.of_nat k.

(* active_cores_ and active_core_mask_ of a thread, with addActiveCore and popActiveCore,
   thread.h:297-315 *)
Record cores : Type := { c_list : list nat; c_mask : Z }.
Definition add_active (c : cores) (i : nat) : cores :=
  {| c_list := c_list c ++ [i]; c_mask := Z.lor (c_mask c) (bit i) |}.
Definition pop_active (c : cores) : cores * nat :=
  let i := last (c_list c) 0%nat in
  ({| c_list := removelast (c_list c); c_mask := Z.land (c_mask c) (Z.lnot (bit i)) |}, i).

(* available_cores_, the threads, and pending_threads_ (cpuset_compute_scheduler.h:84-85) *)
Record cpuset : Type := { u_avail : Z; u_cores : nat -> cores; u_pend : list request }.

(* The constructor, cpuset_compute_scheduler.h:64-73 *)
Definition u_all (nc : nat) : Z := fold_left (fun m i => Z.lor m (bit i)) (seq 0 nc) 0.
Definition cpuset0 (nc : nat) : cpuset :=
  {| u_avail := u_all nc; u_cores := fun _ => {| c_list := []; c_mask := 0 |}; u_pend := [] |}.

(* The loop of allocateCores over the cores is, cpuset_compute_scheduler.cc:57-66; need is
   what is still to be found. *)
Fixpoint u_search (valid : Z) (is : list nat) (need : nat) (c : cores) : cores * nat :=
  match is, need with
  | [], _ | _, O => (c, need)
  | i :: r, S k =>
    if Z.eqb (Z.land valid (bit i)) 0 then u_search valid r need c
    else u_search valid r k (add_active c i)
  end.

Fixpoint pop_times (n : nat) (c : cores) : cores :=
  match n with O => c | S k => pop_times k (fst (pop_active c)) end.

(* allocateCores, cpuset_compute_scheduler.cc:52-81.  mask t is the thread's cpumask_
   (thread.h:289-291), here fixed: setAffinity and setCpumask on a thread that already has cores
   or waits are not modelled. *)
Definition u_allocate (nc : nat) (mask : nat -> Z) (s : cpuset) (n t : nat) : cpuset * bool :=
  let valid := Z.land (mask t) (u_avail s) in
  let '(c, missing) := u_search valid (seq 0 nc) n (u_cores s t) in
  match missing with
  | O => ({| u_avail := Z.land (u_avail s) (Z.lnot (c_mask c));
             u_cores := upd_at (u_cores s) t c; u_pend := u_pend s |}, true)
  | _ => ({| u_avail := u_avail s;
             u_cores := upd_at (u_cores s) t (pop_times (n - missing) c); u_pend := u_pend s |}, false)
  end.

(* reserveCores, cpuset_compute_scheduler.cc:83-97 *)
Definition u_reserve (nc : nat) (mask : nat -> Z) (s : cpuset) (n t : nat) : cpuset :=
  let '(s1, ok) := u_allocate nc mask s n t in
  if ok then s1 else {| u_avail := u_avail s1; u_cores := u_cores s1; u_pend := u_pend s1 ++ [(n, t)] |}.

(* The first loop of releaseCores, cpuset_compute_scheduler.cc:102-108 *)
Fixpoint u_give (n : nat) (avail : Z) (c : cores) : Z * cores :=
  match n with
  | O => (avail, c)
  | S k => let '(c1, i) := pop_active c in u_give k (Z.lor avail (bit i)) c1
  end.

(* The second loop, cpuset_compute_scheduler.cc:112-125: every pending thread in turn; kept
   are those that stay. *)
Fixpoint u_scan (nc : nat) (mask : nat -> Z) (l : list request) (s : cpuset) (kept : list request) : cpuset :=
  match l with
  | [] => {| u_avail := u_avail s; u_cores := u_cores s; u_pend := kept |}
  | (n, t) :: r =>
    let '(s1, ok) := u_allocate nc mask s n t in
    u_scan nc mask r s1 (if ok then kept else kept ++ [(n, t)])
  end.

Definition u_release (nc : nat) (mask : nat -> Z) (s : cpuset) (n t : nat) : cpuset :=
  let '(a, c) := u_give n (u_avail s) (u_cores s t) in
  u_scan nc mask (u_pend s) {| u_avail := a; u_cores := upd_at (u_cores s) t c; u_pend := [] |} [].

Definition u_step (nc : nat) (mask : nat -> Z) (s : cpuset) (o : op) : option cpuset :=
  match o with
  | Reserve n t => if busy (u_pend s) t then None else Some (u_reserve nc mask s n t)
  | Release n t =>
    if busy (u_pend s) t then None
    else if (n <=? length (c_list (u_cores s t)))%nat then Some (u_release nc mask s n t) else None
  | Wake _ => None
  end.

Fixpoint u_run (nc : nat) (mask : nat -> Z) (s : cpuset) (l : list op) : option cpuset :=
  match l with
  | [] => Some s
  | o :: r => match u_step nc mask s o with Some s1 => u_run nc mask s1 r | None => None end
  end.
