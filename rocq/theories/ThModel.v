(** The life of the threads of one simulated process: pthread_create,
    pthread_join, pthread_detach, pthread_exit, the end of a thread and the
    end of the process.

    Modelled: sstmac/libraries/pthread/sstmac_pthread.cc,
    sstmac/software/process/thread.cc (initThread, runRoutine, cleanup),
    app.cc (addSubthread, getSubthread, removeSubthread, cleanup) and
    operating_system.cc (startThread, joinThread, completeActiveThread,
    scheduleThreadDeletion, unblock, switchToThread).

    Simplifications.  Threads are numbered in the order of creation; 0 is the
    main thread, whose object is the App.  Everything a thread does that is
    not one of the calls here is left out; a call that blocks for another
    reason is [OIo], and [OWake] is a call that unblocks such a thread (a
    mutex, a condition, a queue).  Cores and stacks are left out.  Events of
    the operating system are executed at once, in the order they were sent
    (sendExecutionEventNow); other events (a message, a timer) may unblock a
    thread between any two of them. *)
From Coq Require Import List Arith Bool Lia.
Import ListNotations.

(** sstmac/software/process/thread.h:99-107, the values of state_ that
    matter. *)
Inductive state := SPending | SActive | SCanceled | SDone.

(** What the thread is doing.  [Ready] and [JoinReady] are threads whose
    switchToThread event has been sent; [Lost] is a thread that left
    runRoutine without cleanup. *)
Inductive mode :=
  | Fresh | Running | Io | Ready | Joining (u : nat) | JoinReady (u : nat) | Ended | Lost.

(** sstmac/software/process/thread.h: state_, detach_state_ == DETACHED,
    joiners_. *)
Record thr := T { md : mode; st : state; det : bool; jn : list nat }.

(** Events sent with sendExecutionEventNow: startThread
    (operating_system.cc:746), switchToThread (:416), DeleteThreadEvent
    (:554). *)
Inductive ev := EStart (t : nat) | ESwitch (t : nat) | EDelete (t : nat).

Record world := W {
  n : nat;               (* threads created so far *)
  th : nat -> thr;
  freed : nat -> bool;   (* the object has been deleted *)
  subs : list nat;       (* App::subthreads_ *)
  act : option nat;      (* active_thread_ *)
  q : list ev
}.

Definition put {A} (f : nat -> A) (i : nat) (a : A) : nat -> A :=
  fun j => if j =? i then a else f j.

Definition set_th (t : nat) (x : thr) (w : world) : world :=
  W (n w) (put (th w) t x) (freed w) (subs w) (act w) (q w).
Definition set_md (t : nat) (m : mode) (w : world) : world :=
  set_th t (T m (st (th w t)) (det (th w t)) (jn (th w t))) w.
Definition set_st (t : nat) (s : state) (w : world) : world :=
  set_th t (T (md (th w t)) s (det (th w t)) (jn (th w t))) w.
Definition set_det (t : nat) (w : world) : world :=
  set_th t (T (md (th w t)) (st (th w t)) true (jn (th w t))) w.
Definition set_jn (t : nat) (l : list nat) (w : world) : world :=
  set_th t (T (md (th w t)) (st (th w t)) (det (th w t)) l) w.
Definition set_act (a : option nat) (w : world) : world :=
  W (n w) (th w) (freed w) (subs w) a (q w).
Definition set_subs (l : list nat) (w : world) : world :=
  W (n w) (th w) (freed w) l (act w) (q w).
Definition send (e : ev) (w : world) : world :=
  W (n w) (th w) (freed w) (subs w) (act w) (q w ++ [e]).
Definition free (t : nat) (w : world) : world :=
  W (n w) (th w) (put (freed w) t true) (subs w) (act w) (q w).

(** How a step ends: [Bad] is the use or the deletion of a deleted object,
    [Throw] the exception of getSubthread for an unknown thread, which nobody
    catches. *)
Inductive out := Good (w : world) | Bad | Throw.

Definition bind (o : out) (f : world -> out) : out :=
  match o with Good w => f w | Bad => Bad | Throw => Throw end.

(** Access to the object of a thread. *)
Definition use (t : nat) (w : world) : out := if freed w t then Bad else Good w.

(** operator delete on a thread. *)
Definition del (t : nat) (w : world) : out := if freed w t then Bad else Good (free t w).

Definition mem (t : nat) (l : list nat) : bool := existsb (Nat.eqb t) l.
Definition rm (t : nat) (l : list nat) : list nat := filter (fun x => negb (x =? t)) l.

Definition is_done (s : state) : bool := match s with SDone => true | _ => false end.
Definition is_canceled (s : state) : bool := match s with SCanceled => true | _ => false end.

(** app.cc:589-593 and 595-599, removeSubthread: part of the App. *)
Definition remove_sub (t : nat) (w : world) : out :=
  bind (use 0 w) (fun w => Good (set_subs (rm t (subs w)) w)).

(** app.cc:577-587, getSubthread. *)
Definition get_sub (t : nat) (w : world) : out :=
  bind (use 0 w) (fun w => if mem t (subs w) then Good w else Throw).

(** sstmac_pthread.cc:76-104, pthread_create with addSubthread
    (app.cc:568-575) and startThread from a thread
    (operating_system.cc:744-746). *)
Definition create (d : bool) (w : world) : out :=
  bind (use 0 w) (fun w =>
    let i := n w in
    let w1 := W (S i) (put (th w) i (T Fresh SPending d [])) (freed w) (i :: subs w) (act w) (q w) in
    Good (send (EStart i) w1)).

(** operating_system.cc:526-544 after block, and sstmac_pthread.cc:152: the
    thread is deleted and taken out of the App. *)
Definition joined (u : nat) (w : world) : out := bind (del u w) (remove_sub u).

(** sstmac_pthread.cc:133-154, pthread_join, with joinThread
    (operating_system.cc:526-544). *)
Definition join (me u : nat) (w : world) : out :=
  bind (get_sub u w) (fun w => bind (use u w) (fun w =>
    if is_done (st (th w u)) then joined u w
    else Good (set_act None (set_md me (Joining u) (set_jn u (jn (th w u) ++ [me]) w))))).

(** sstmac_pthread.cc:682-689, pthread_detach. *)
Definition detach (u : nat) (w : world) : out :=
  bind (get_sub u w) (fun w => bind (use u w) (fun w => Good (set_det u w))).

(** operating_system.cc:514-524, unblock, while a thread is active: a canceled
    thread is deleted, for another one switchToThread (:410-418) sends an
    event. *)
Definition ready (m : mode) : mode :=
  match m with Io => Ready | Joining u => JoinReady u | x => x end.
Definition unblock (j : nat) (w : world) : out :=
  bind (use j w) (fun w =>
    if is_canceled (st (th w j)) then del j w
    else Good (send (ESwitch j) (set_md j (ready (md (th w j))) w))).

(** operating_system.cc:567-574, the loop over joiners_. *)
Fixpoint unblock_all (l : list nat) (w : world) : out :=
  match l with [] => Good w | j :: r => bind (unblock j w) (unblock_all r) end.

(** app.cc:439-450, App::cleanup: cancel every thread that is known. *)
Fixpoint cancel_all (l : list nat) (w : world) : out :=
  match l with
  | [] => Good w
  | t :: r => bind (use t w) (fun w => cancel_all r (set_st t SCanceled w))
  end.

(** thread.cc:105-123, Thread::cleanup, up to the deletion of a detached
    thread; the App is always detached. *)
Definition cleanup_thread (me : nat) (w : world) : out :=
  if det (th w me) && negb (is_canceled (st (th w me))) then
    bind (remove_sub me w) (fun w => Good (send (EDelete me) w))
  else Good w.

(** operating_system.cc:557-580, completeActiveThread. *)
Definition complete (me : nat) (w : world) : out :=
  let l := jn (th w me) in
  bind (unblock_all l (set_md me Ended (set_st me SDone w)))
       (fun w => Good (set_act None (set_jn me [] w))).

(** thread.cc:129-148: the routine of the thread returns. *)
Definition finish (me : nat) (w : world) : out :=
  bind (if me =? 0
        then bind (cancel_all (subs w) w) (fun w => cleanup_thread 0 (set_subs [] w))
        else cleanup_thread me w)
       (complete me).

(** Calls of the active thread. *)
Inductive op :=
  | OCreate (d : bool) | OJoin (u : nat) | ODetach (u : nat)
  | OIo | OWake (j : nat) | OReturn | OExit.

Definition run_op (me : nat) (o : op) (w : world) : out :=
  match o with
  | OCreate d => create d w
  | OJoin u => join me u w
  | ODetach u => detach u w
  | OIo => Good (set_act None (set_md me Io w))
  | OWake j => unblock j w
  | OReturn => finish me w
  (* sstmac_pthread.cc:115-121, pthread_exit: kill with the default code
     throws kill_exception (thread.h:199-205), and runRoutine ends without
     cleanup (thread.cc:149-151) *)
  | OExit => Good (set_act None (set_md me Lost w))
  end.

(** Events.  operating_system.cc:741-761, startThread on the DES thread, uses
    the App of the thread; initThread and runRoutine overwrite state_
    (thread.cc:90, 134).  switchToThread resumes the thread, which leaves
    block; a joining thread deletes the joined one. *)
Definition run_ev (e : ev) (w : world) : out :=
  match e with
  | EStart t =>
      bind (use t w) (fun w => bind (use 0 w) (fun w =>
        Good (set_act (Some t) (set_md t Running (set_st t SActive w)))))
  | ESwitch t =>
      bind (use t w) (fun w =>
        let m := md (th w t) in
        let w1 := set_act (Some t) (set_md t Running w) in
        match m with JoinReady u | Joining u => joined u w1 | _ => Good w1 end)
  | EDelete t => del t w
  end.

(** unblock from the DES thread: switchToThread resumes at once. *)
Definition wake (j : nat) (w : world) : out :=
  bind (use j w) (fun w =>
    if is_canceled (st (th w j)) then del j w
    else Good (set_act (Some j) (set_md j Running w))).

Definition pop (w : world) : world :=
  W (n w) (th w) (freed w) (subs w) (act w) (tl (q w)).

(** One step: the active thread makes a call; or, without an active thread,
    the next event runs or something unblocks a thread. *)
Inductive label := Call (me : nat) (o : op) | Next | Wake (j : nat).

Inductive step : world -> label -> out -> Prop :=
  | step_call w me o : act w = Some me -> step w (Call me o) (run_op me o w)
  | step_next w e r : act w = None -> q w = e :: r -> step w Next (run_ev e (pop w))
  | step_wake w j : act w = None -> j < n w -> md (th w j) = Io -> step w (Wake j) (wake j w).

(** The process starts with its main thread. *)
Definition start : world :=
  W 1 (fun i => T (if i =? 0 then Running else Fresh) SActive true []) (fun _ => false) [] (Some 0) [].
