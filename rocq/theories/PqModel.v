(** Blocking and waking simulated threads: sstmac/software/process/operating_system.cc (switchToThread,
    block, blockTimeout, unblock, joinThread, completeActiveThread), unblock_event.cc, and the
    completion queues of sstmac/software/process/progress_queue.{h,cc} (MultiProgressQueue, which
    SimTransport uses for every poll).
    Simplified: one node; an event may be executed at any moment after it was sent (a superset of the
    real orders, time is not modelled); items are numbers; cancelled and detached threads, core
    reservation, the debugger hooks and the single and polling queues are not modelled. *)
From Coq Require Import List Arith Bool.
Import ListNotations.

(** Where a thread that gave up the processor will return to. *)
Inductive blk :=
| WCq (c : nat) (tm : bool)   (* MultiProgressQueue::find(c), progress_queue.h:227-249; [tm]: with timeout *)
| WAny (tm : bool)            (* find_any, progress_queue.h:197-225 *)
| WTimer (k : nat)            (* sleep, sleepUntil, compute, operating_system.cc:301-340 *)
| WJoin (t : nat)             (* joinThread, operating_system.cc:527-544 *)
| WStart.                     (* startThread, operating_system.cc:741-775: not yet run; started at once
                                 when no thread is active, here always by an event (superset) *)
(** Thread states; [Gone]: deleted. *)
Inductive tst := Unborn | Running | Blocked (b : blk) | Done | Gone.
(** What an unblock was meant for (not in the code: the events only hold the thread). *)
Inductive cause := ByItem | ByPost | ByTimer (k : nat) | ByTimeout | ByJoin (t : nat) | ByStart.
(** Events: an UnblockEvent or a callback to switchToThread; a TimeoutEvent with the block counter. *)
Inductive ev := Wake (t : nat) (why : cause) | Tmo (t k : nat).
(** What goes wrong: a blocking find without timeout returns without an item (the program aborts under
    SSTMAC_SANITY_CHECK and otherwise hands out a null pointer); a thread that is not paused is
    switched to; join deletes a thread that is not done; a deleted thread is used; a timeout event
    looks at a deleted thread. *)
Inductive bad := BEmpty | BResume | BDelete | BFreed | BStale.
(** Observable: an item or nothing is returned by find to a thread; a thread continues after a block. *)
Inductive out := Got (t c i : nat) | Null (t : nat) | Back (t : nat) (b : blk) (why : cause) | Bad (f : bad).

Record pq := Pq {
  p_act : option nat;             (* active_thread_ *)
  p_st : nat -> tst;
  p_q : nat -> list nat;          (* queues *)
  p_pend : nat -> list nat;       (* pending_threads *)
  p_any : list nat;               (* any_threads *)
  p_ev : list ev;
  p_bc : nat -> nat;              (* block_counter_ *)
  p_jn : nat -> list nat;         (* joiners_ *)
  p_log : list out }.

Definition set {A} (f : nat -> A) (k : nat) (v : A) : nat -> A := fun x => if x =? k then v else f x.
Definition start : pq := Pq None (fun _ => Unborn) (fun _ => []) (fun _ => []) [] [] (fun _ => 0) (fun _ => []) [].

Definition say (o : out) (s : pq) : pq :=
  Pq (p_act s) (p_st s) (p_q s) (p_pend s) (p_any s) (p_ev s) (p_bc s) (p_jn s) (p_log s ++ [o]).
Definition send (e : ev) (s : pq) : pq :=
  Pq (p_act s) (p_st s) (p_q s) (p_pend s) (p_any s) (p_ev s ++ [e]) (p_bc s) (p_jn s) (p_log s).
Definition set_q (c : nat) (l : list nat) (s : pq) : pq :=
  Pq (p_act s) (p_st s) (set (p_q s) c l) (p_pend s) (p_any s) (p_ev s) (p_bc s) (p_jn s) (p_log s).
Definition set_st (t : nat) (x : tst) (s : pq) : pq :=
  Pq (p_act s) (set (p_st s) t x) (p_q s) (p_pend s) (p_any s) (p_ev s) (p_bc s) (p_jn s) (p_log s).
Definition set_act (a : option nat) (s : pq) : pq :=
  Pq a (p_st s) (p_q s) (p_pend s) (p_any s) (p_ev s) (p_bc s) (p_jn s) (p_log s).
Definition set_pend (c : nat) (l : list nat) (s : pq) : pq :=
  Pq (p_act s) (p_st s) (p_q s) (set (p_pend s) c l) (p_any s) (p_ev s) (p_bc s) (p_jn s) (p_log s).
Definition set_any (l : list nat) (s : pq) : pq :=
  Pq (p_act s) (p_st s) (p_q s) (p_pend s) l (p_ev s) (p_bc s) (p_jn s) (p_log s).
Definition set_jn (t : nat) (l : list nat) (s : pq) : pq :=
  Pq (p_act s) (p_st s) (p_q s) (p_pend s) (p_any s) (p_ev s) (p_bc s) (set (p_jn s) t l) (p_log s).
Definition set_ev (l : list ev) (s : pq) : pq :=
  Pq (p_act s) (p_st s) (p_q s) (p_pend s) (p_any s) l (p_bc s) (p_jn s) (p_log s).
Definition tick (t : nat) (s : pq) : pq :=
  Pq (p_act s) (p_st s) (p_q s) (p_pend s) (p_any s) (p_ev s) (set (p_bc s) t (S (p_bc s t))) (p_jn s) (p_log s).

(** list::remove of ProgressQueue::block, progress_queue.cc:59. *)
Definition drop (t : nat) (l : list nat) : list nat := filter (fun x => negb (x =? t)) l.
(** The first non-empty queue in the order of the map, progress_queue.h:198-204. *)
Definition first_of (n : nat) (s : pq) : option (nat * nat * list nat) :=
  fold_right (fun c r => match p_q s c with i :: l => Some (c, i, l) | [] => r end) None (seq 0 n).

(** OperatingSystem::block up to the pause, operating_system.cc:454-469. *)
Definition pause (t : nat) (b : blk) (s : pq) : pq := set_act None (set_st t (Blocked b) s).

(** The second half of find, find_any and joinThread, after block returned:
    progress_queue.h:237-248, 211-224; operating_system.cc:542-543. *)
Definition take_cq (t c : nat) (tm : bool) (s : pq) : pq :=
  match p_q s c with
  | i :: l => say (Got t c i) (set_q c l s)
  | [] => (if tm then fun x => x else say (Bad BEmpty)) (say (Null t) s)
  end.
Definition take_any (n t : nat) (tm : bool) (s : pq) : pq :=
  match first_of n s with
  | Some (c, i, l) => say (Got t c i) (set_q c l s)
  | None => (if tm then fun x => x else say (Bad BEmpty)) (say (Null t) s)
  end.
Definition delete (t : nat) (s : pq) : pq :=
  set_st t Gone (match p_st s t with Done => s | Gone => say (Bad BFreed) s | _ => say (Bad BDelete) s end).

(** switchToThread with no active thread (operating_system.cc:420-431), then the rest of block
    (469-487) and of the function that called it. *)
Definition resume (n t : nat) (why : cause) (s : pq) : pq :=
  match p_st s t with
  | Blocked b =>
      let s1 := say (Back t b why) (set_act (Some t) (set_st t Running s)) in
      match b with
      | WStart => s1
      | WTimer _ => tick t s1
      | WCq c tm => take_cq t c tm (set_pend c (drop t (p_pend s c)) (tick t s1))
      | WAny tm => take_any n t tm (set_any (drop t (p_any s)) (tick t s1))
      | WJoin t' => delete t' (tick t s1)
      end
  | Gone => say (Bad BFreed) s
  | _ => say (Bad BResume) s
  end.
(** OperatingSystem::unblock and switchToThread, operating_system.cc:410-418, 514-524: at once when no
    thread is active, else by an event. *)
Definition unblock (n t : nat) (why : cause) (s : pq) : pq :=
  match p_act s with Some _ => send (Wake t why) s | None => resume n t why s end.

(** MultiProgressQueue::incoming, progress_queue.h:251-260; the thread is not taken off its list. *)
Definition incoming (n c i : nat) (why : cause) (s : pq) : pq :=
  let s1 := set_q c (p_q s c ++ [i]) s in
  match p_pend s c with
  | t :: _ => unblock n t why s1
  | [] => match p_any s with t :: _ => unblock n t why s1 | [] => s1 end
  end.

(** Execution of an event: UnblockEvent / the switchToThread callback, TimeoutEvent
    (unblock_event.cc:57-80). *)
Definition fire (n : nat) (e : ev) (s : pq) : pq :=
  match e with
  | Wake t why => resume n t why s
  | Tmo t k => match p_st s t with
               | Gone => say (Bad BStale) s
               | _ => if p_bc s t =? k then resume n t ByTimeout s else s
               end
  end.

(** How find is called: not blocking, blocking, blocking with a timeout. *)
Inductive mode := NoBlock | Block | BlockTm.
Definition is_tm (m : mode) : bool := match m with BlockTm => true | _ => false end.
(** ProgressQueue::block, progress_queue.cc:51-58 and blockTimeout, operating_system.cc:507-512. *)
Definition arm (t : nat) (m : mode) (s : pq) : pq := match m with BlockTm => send (Tmo t (p_bc s t)) s | _ => s end.
Definition do_find (t c : nat) (m : mode) (s : pq) : pq :=
  match p_q s c, m with
  | i :: l, _ => say (Got t c i) (set_q c l s)
  | [], NoBlock => say (Null t) s
  | [], _ => pause t (WCq c (is_tm m)) (arm t m (set_pend c (p_pend s c ++ [t]) s))
  end.
Definition do_any (n t : nat) (m : mode) (s : pq) : pq :=
  match first_of n s, m with
  | Some (c, i, l), _ => say (Got t c i) (set_q c l s)
  | None, NoBlock => say (Null t) s
  | None, _ => pause t (WAny (is_tm m)) (arm t m (set_any (p_any s ++ [t]) s))
  end.
(** joinThread, operating_system.cc:527-544. *)
Definition do_join (t t' : nat) (s : pq) : pq :=
  match p_st s t' with
  | Done => delete t' s
  | Gone => say (Bad BFreed) s
  | _ => pause t (WJoin t') (set_jn t' (p_jn s t' ++ [t]) s)
  end.
(** Thread::cleanup of a joinable thread and completeActiveThread (thread.cc:107-123,
    operating_system.cc:557-579). *)
Definition do_exit (n t : nat) (s : pq) : pq :=
  set_act None (set_jn t [] (fold_left (fun s j => unblock n j (ByJoin t) s) (p_jn s t) (set_st t Done s))).

(** What can happen: in the simulator's own context an item arrives, a pending event is executed (the
    k-th, any k), or a thread is launched; the active thread polls, posts an item itself (a message to
    its own rank, sim_transport.cc:415-425), computes or sleeps, starts or joins a thread, or ends. *)
Inductive act :=
| Arrive (c i : nat) | Fire (k : nat) | Launch (t : nat)
| Find (c : nat) (m : mode) | FindAny (m : mode) | Post (c i : nat) | Compute | Start (t : nat) | Join (t : nat) | Exit.

Fixpoint cut {A} (k : nat) (l : list A) : option (A * list A) :=
  match l, k with
  | [], _ => None
  | x :: r, 0 => Some (x, r)
  | x :: r, S k => match cut k r with Some (y, r') => Some (y, x :: r') | None => None end
  end.

(** One step; [None]: not possible now.  [n] completion queues exist. *)
Definition step (n : nat) (a : act) (s : pq) : option pq :=
  match p_act s, a with
  | None, Arrive c i => if c <? n then Some (incoming n c i ByItem s) else None
  | None, Fire k => match cut k (p_ev s) with Some (e, r) => Some (fire n e (set_ev r s)) | None => None end
  | None, Launch t => match p_st s t with Unborn => Some (send (Wake t ByStart) (set_st t (Blocked WStart) s)) | _ => None end
  | Some t, Find c m => if c <? n then Some (do_find t c m s) else None
  | Some t, FindAny m => Some (do_any n t m s)
  | Some t, Post c i => if c <? n then Some (incoming n c i ByPost s) else None
  | Some t, Compute => Some (pause t (WTimer (p_bc s t)) (send (Wake t (ByTimer (p_bc s t))) s))
  | Some t, Start t' => match p_st s t' with Unborn => Some (send (Wake t' ByStart) (set_st t' (Blocked WStart) s)) | _ => None end
  | Some t, Join t' => match p_st s t' with Unborn => None | _ => Some (do_join t t' s) end
  | Some t, Exit => Some (do_exit n t s)
  | _, _ => None
  end.
Fixpoint run (n : nat) (l : list act) (s : pq) : option pq :=
  match l with [] => Some s | a :: r => match step n a s with Some s' => run n r s' | None => None end end.
