(* Polling: MPI_Test and MPI_Iprobe in a loop.
   /repo/sumi-mpi/mpi_api.cc:141-145, /repo/sumi-mpi/mpi_api.h:831-832,
   /repo/sumi-mpi/mpi_api_test.cc:54-79, /repo/sumi-mpi/mpi_api_probe.cc:79-101,
   /repo/sumi-mpi/mpi_queue/mpi_queue.cc:287-310, 499-507,
   /repo/sstmac/software/process/progress_queue.h:190-225 *)
From Coq Require Import List Bool Arith.
Import ListNotations.

(* One rank, times in nanoseconds: the clock, the messages of its completion queues still
   to be taken, with their times of arrival (those to come included), and the messages
   MpiQueue::incomingMessage has handled.  A message is a number; handling it is what
   completes its request or makes it visible to a probe. *)
Record rank : Type := Rank { now : nat; inbox : list (nat * nat); handled : list nat }.

(* iprobe_delay_us_ and test_delay_us_ are ints (mpi_api.h:831-832) set from a time
   (mpi_api.cc:141-145): whole microseconds.  forwardProgress gets them back as a time
   (mpi_api_test.cc:75-77, mpi_api_probe.cc:91-92).  Rounding of the doubles is not
   modelled. *)
Definition whole_us (delay : nat) : nat := delay / 1000.
Definition timeout (delay : nat) : nat := whole_us delay * 1000.

(* ProgressQueue::find_any with a timeout, progress_queue.h:197-225: a message that is
   there is returned at once; otherwise the thread sleeps until one arrives or the time
   is over.  A message that arrives in the very tick counts as in time.
   One completion queue: find_any prefers the queue with the lower number. *)
Definition find_any (t : nat) (s : rank) : rank * option nat :=
  match inbox s with
  | (a, m) :: r =>
    if a <=? now s then (Rank (now s) r (handled s), Some m)
    else if a <=? now s + t then (Rank a r (handled s), Some m)
    else (Rank (now s + t) (inbox s) (handled s), None)
  | [] => (Rank (now s + t) [] (handled s), None)
  end.

(* MpiQueue::forwardProgress, mpi_queue.cc:499-507 *)
Definition forward (t : nat) (s : rank) : rank :=
  match find_any t s with
  | (s', Some m) => Rank (now s') (inbox s') (m :: handled s')
  | (s', None) => s'
  end.

Definition seen (m : nat) (s : rank) : bool := existsb (Nat.eqb m) (handled s).

(* test, mpi_api_test.cc:54-79: the request completed by message m *)
Definition test (delay m : nat) (s : rank) : rank * bool :=
  if seen m s then (s, true)
  else if whole_us delay =? 0 then (s, false)
  else (forward (timeout delay) s, false).

(* iprobe, mpi_api_probe.cc:79-101: looks again after the delay *)
Definition iprobe (delay m : nat) (s : rank) : rank * bool :=
  if seen m s then (s, true)
  else if whole_us delay =? 0 then (s, false)
  else let s' := forward (timeout delay) s in (s', seen m s').

(* the program computes for c before it polls again *)
Definition compute (c : nat) (s : rank) : rank := Rank (now s + c) (inbox s) (handled s).

(* while (!flag){ MPI_Test or MPI_Iprobe; compute }: at most n calls; the flag of the
   last *)
Fixpoint poll (call : rank -> rank * bool) (c n : nat) (s : rank) : rank * bool :=
  match n with
  | 0 => (s, false)
  | S n => let (s', f) := call s in
           if f then (s', true) else poll call c n (compute c s')
  end.
