(** The threads an operating system knows by number, for
    pthread_setaffinity_np and pthread_getaffinity_np.

    Simplification: the number of a thread is its place in the order of
    creation on this node (THREAD_ID_CNT, thread.cc:72 and 233-243, when
    nothing else creates threads). *)
From Coq Require Import List Arith Bool Lia.
Import ListNotations.

(** sstmac/software/process/operating_system.h:408, running_threads_, with
    the task number (the rank) and cpumask_ of every thread; [gone]: deleted. *)
Record os := O {
  cnt : nat;
  task : nat -> nat;
  mask : nat -> nat;
  gone : nat -> bool;
  running : nat -> option nat
}.

Definition upd {A} (f : nat -> A) (i : nat) (a : A) : nat -> A :=
  fun j => if j =? i then a else f j.

Inductive act :=
  | Start (k : nat)            (* a thread of task k starts *)
  | Join (t : nat)             (* somebody joins thread t *)
  | Delete (t : nat)           (* DeleteThreadEvent *)
  | SetAff (t m : nat).        (* pthread_setaffinity_np *)

Definition boot : os := O 0 (fun _ => 0) (fun _ => 0) (fun _ => false) (fun _ => None).

(** operating_system.cc:823-831. *)
Definition get_thread (t : nat) (s : os) : option nat := running s t.

(** operating_system.cc:741-761, 526-544, 136-138 and
    sstmac_pthread.cc:783-793; the mask of a new thread stands for all
    processors (thread.cc:187, 196). *)
Definition run (a : act) (s : os) : os :=
  match a with
  | Start k => O (S (cnt s)) (upd (task s) (cnt s) k) (mask s) (gone s)
                 (upd (running s) k (Some (cnt s)))
  | Join t => O (cnt s) (task s) (mask s) (upd (gone s) t true) (upd (running s) (task s t) None)
  | Delete t => O (cnt s) (task s) (mask s) (upd (gone s) t true) (running s)
  | SetAff t m =>
      match get_thread t s with
      | Some u => O (cnt s) (task s) (upd (mask s) u m) (gone s) (running s)
      | None => s
      end
  end.

(** sstmac_pthread.cc:783-805: 0, or EINVAL. *)
Definition found (t : nat) (s : os) : bool :=
  match get_thread t s with Some _ => true | None => false end.

Definition runs (l : list act) (s : os) : os := fold_left (fun s a => run a s) l s.
