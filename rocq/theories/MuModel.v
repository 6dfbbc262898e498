(* The simulated pthread mutex, condition variable and once control.
   /repo/sstmac/libraries/pthread/sstmac_pthread.cc, /repo/sstmac/software/process/thread.cc *)
From Coq Require Import List Bool Arith.
Import ListNotations.

Definition thread := nat.

(* Events posted by calls, in the order they run.
   Wk t: OperatingSystem::unblock(t) called from a running thread posts switchToThread
   (operating_system.cc:410-418, 514-524).  Ub: the UnblockEvent of a condition wait
   (sstmac_pthread.cc:339-359). *)
Inductive ev : Type := Wk (t : thread) | Ub.

(* One mutex_t: locked, waiters, conditionals (mutex.h), the posted events, and for every
   condition variable whether the mutex is in its map of mutexes (condition_t).
   Only for stating properties: m_on, the condition each thread in conditionals waits on;
   m_hold, the threads whose last call gave them the mutex and that have not given it up;
   m_called, the threads in the order of their calls of lock; m_got, the threads in the
   order in which those calls returned. *)
Record mutex : Type := {
  m_locked : bool; m_wait : list thread; m_cond : list thread; m_evs : list ev; m_used : list nat;
  m_on : thread -> nat; m_hold : list thread; m_called : list thread; m_got : list thread }.

Definition mutex0 : mutex :=
  {| m_locked := false; m_wait := []; m_cond := []; m_evs := []; m_used := []; m_on := fun _ => 0;
     m_hold := []; m_called := []; m_got := [] |}.

Inductive result : Type := Ok (m : mutex) | Abort.

(* SSTMAC_pthread_mutex_lock, sstmac_pthread.cc:259-281 (spin_lock 253-257 is the same) and
   stdMutex::lock, thread.cc:453-464.  Mutexes that do not exist are not modelled. *)
Definition lock (m : mutex) (t : thread) : mutex :=
  if m_locked m
  then {| m_locked := true; m_wait := m_wait m ++ [t]; m_cond := m_cond m; m_evs := m_evs m; m_used := m_used m;
          m_on := m_on m; m_hold := m_hold m; m_called := m_called m ++ [t]; m_got := m_got m |}
  else {| m_locked := true; m_wait := m_wait m; m_cond := m_cond m; m_evs := m_evs m; m_used := m_used m;
          m_on := m_on m; m_hold := t :: m_hold m; m_called := m_called m ++ [t]; m_got := m_got m ++ [t] |}.

(* SSTMAC_pthread_mutex_trylock, sstmac_pthread.cc:290-308, and stdMutex::try_lock,
   thread.cc:485-495: success is reported when the mutex is free, which stays free. *)
Definition trylock (m : mutex) (t : thread) : mutex :=
  if m_locked m then m
  else {| m_locked := m_locked m; m_wait := m_wait m; m_cond := m_cond m; m_evs := m_evs m; m_used := m_used m;
          m_on := m_on m; m_hold := t :: m_hold m; m_called := m_called m; m_got := m_got m |}.

Definition drop (t : thread) (l : list thread) : list thread := remove Nat.eq_dec t l.

(* SSTMAC_pthread_mutex_unlock, sstmac_pthread.cc:316-337, and stdMutex::unlock, thread.cc:471-483 *)
Definition unlock (m : mutex) (t : thread) : mutex :=
  if m_locked m then
    match m_wait m with
    | w :: r => {| m_locked := true; m_wait := r; m_cond := m_cond m; m_evs := m_evs m ++ [Wk w]; m_used := m_used m;
                   m_on := m_on m; m_hold := drop t (m_hold m); m_called := m_called m; m_got := m_got m |}
    | [] => {| m_locked := false; m_wait := []; m_cond := m_cond m; m_evs := m_evs m; m_used := m_used m;
               m_on := m_on m; m_hold := drop t (m_hold m); m_called := m_called m; m_got := m_got m |}
    end
  else (* returns EINVAL *)
    {| m_locked := false; m_wait := m_wait m; m_cond := m_cond m; m_evs := m_evs m; m_used := m_used m;
       m_on := m_on m; m_hold := drop t (m_hold m); m_called := m_called m; m_got := m_got m |}.

(* SSTMAC_pthread_cond_wait, sstmac_pthread.cc:408-414, 416-456, up to block(); waits with a
   time limit are not modelled. *)
Definition cond_wait (m : mutex) (c : nat) (t : thread) : mutex :=
  let used := if existsb (Nat.eqb c) (m_used m) then m_used m else c :: m_used m in
  let on := fun u => if Nat.eqb u t then c else m_on m u in
  match m_wait m with
  | _ :: _ => {| m_locked := m_locked m; m_wait := m_wait m; m_cond := m_cond m ++ [t]; m_evs := m_evs m ++ [Ub];
                 m_used := used; m_on := on; m_hold := drop t (m_hold m); m_called := m_called m; m_got := m_got m |}
  | [] => {| m_locked := false; m_wait := []; m_cond := m_cond m ++ [t]; m_evs := m_evs m;
             m_used := used; m_on := on; m_hold := drop t (m_hold m); m_called := m_called m; m_got := m_got m |}
  end.

(* SSTMAC_pthread_cond_signal, sstmac_pthread.cc:473-500, for a condition variable used with
   this mutex only *)
Definition signal (m : mutex) (c : nat) : result :=
  if existsb (Nat.eqb c) (m_used m) then
    match m_cond m with
    | [] => Abort
    | w :: r => Ok {| m_locked := true; m_wait := m_wait m; m_cond := r; m_evs := m_evs m ++ [Wk w]; m_used := m_used m;
                      m_on := m_on m; m_hold := m_hold m; m_called := m_called m; m_got := m_got m |}
    end
  else Ok m.

(* A thread is resumed: its call of lock or cond_wait returns.  fromlock only decides whether
   the return is recorded in m_got. *)
Definition resume (m : mutex) (t : thread) (fromlock : bool) (wait : list thread) (evs : list ev) : mutex :=
  {| m_locked := m_locked m; m_wait := wait; m_cond := m_cond m; m_evs := evs; m_used := m_used m;
     m_on := m_on m; m_hold := t :: m_hold m; m_called := m_called m;
     m_got := if fromlock then m_got m ++ [t] else m_got m |}.

(* The next posted event runs: a posted switch resumes the thread; an UnblockEvent resumes the
   first waiter at once, as no thread is running then (operating_system.cc:410-432). *)
Definition event (m : mutex) (fromlock : thread -> bool) : option result :=
  match m_evs m with
  | [] => None
  | Wk t :: r => Some (Ok (resume m t (fromlock t) (m_wait m) r))
  | Ub :: r =>
    match m_wait m with
    | [] => Some Abort (* front() of an empty list *)
    | w :: ws => Some (Ok (resume m w true ws r))
    end
  end.

Inductive op : Type :=
  | Lock (t : thread) | TryLock (t : thread) | Unlock (t : thread)
  | CondWait (c : nat) (t : thread) | Signal (c : nat) (t : thread) | Event.

Definition memt (t : thread) (l : list thread) : bool := existsb (Nat.eqb t) l.
Definition is_wk (t : thread) (e : ev) : bool := match e with Wk u => Nat.eqb t u | Ub => false end.

(* A blocked thread makes no calls. *)
Definition blocked (m : mutex) (t : thread) : bool :=
  memt t (m_wait m) || memt t (m_cond m) || existsb (is_wk t) (m_evs m).

(* Whether the thread's blocked call is lock: it has called lock more often than lock has
   returned. *)
Definition in_lock (m : mutex) (t : thread) : bool :=
  count_occ Nat.eq_dec (m_got m) t <? count_occ Nat.eq_dec (m_called m) t.

(* Correct use: threads lock a mutex they do not hold; unlock and wait only on one they hold. *)
Definition step (m : mutex) (o : op) : option result :=
  match o with
  | Lock t => if blocked m t || memt t (m_hold m) then None else Some (Ok (lock m t))
  | TryLock t => if blocked m t || memt t (m_hold m) then None else Some (Ok (trylock m t))
  | Unlock t => if blocked m t || negb (memt t (m_hold m)) then None else Some (Ok (unlock m t))
  | CondWait c t => if blocked m t || negb (memt t (m_hold m)) then None else Some (Ok (cond_wait m c t))
  | Signal c t => if blocked m t then None else Some (signal m c)
  | Event => event m (in_lock m)
  end.

Fixpoint run (m : mutex) (l : list op) : option result :=
  match l with
  | [] => Some (Ok m)
  | o :: r => match step m o with
              | Some (Ok m1) => run m1 r
              | Some Abort => match r with [] => Some Abort | _ => None end
              | None => None
              end
  end.

(* ---------- pthread_once ---------- *)

(* SSTMAC_pthread_once, sstmac_pthread.cc:524-535: the control and how often the routine ran;
   PTHREAD_ONCE_INIT is 0 (sstmac_pthread_impl.h:65). *)
Definition once (s : nat * nat) : nat * nat :=
  let '(ctl, runs) := s in if Nat.eqb ctl 0 then (0, S runs) else (ctl, runs).

(* ---------- read-write locks ---------- *)

(* Every rwlock call returns 0 (success) at once, sstmac_pthread.cc:691-732: the threads that
   hold the lock for writing, after the calls. *)
Inductive rwop : Type := WrLock (t : thread) | RdLock (t : thread) | RwUnlock (t : thread).
Definition rw_step (h : list (thread * bool)) (o : rwop) : list (thread * bool) :=
  match o with
  | WrLock t => (t, true) :: h
  | RdLock t => (t, false) :: h
  | RwUnlock t => filter (fun p => negb (Nat.eqb (fst p) t)) h
  end.
