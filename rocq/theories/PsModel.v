(* Persistent requests, MPI_PROC_NULL and the blocking point-to-point calls of one rank.
   /repo/sumi-mpi/mpi_api_send_recv.cc:65-426, /repo/sumi-mpi/mpi_api_wait.cc:81-230,
   /repo/sumi-mpi/mpi_api_test.cc:54-79, /repo/sumi-mpi/mpi_request.h:59-69, 146-261,
   /repo/sumi-mpi/mpi_request.cc:101-115, /repo/sumi-mpi/mpi_api.cc:482-496, 553-571 *)
From Coq Require Import List Bool Arith.
Import ListNotations.

Inductive kind : Type := Snd | Rcv.

(* The arguments of a transfer, PersistentOp, mpi_request.h:59-69.  a_peer is None for
   MPI_PROC_NULL; a_body stands for count, datatype, tag, communicator and buffer. *)
Record args : Type := Args { a_kind : kind; a_peer : option nat; a_body : nat }.

(* MPI_Status: Unset is the uninitialised stat_ of a new MpiRequest (mpi_request.h:157-164
   does not set it), Null is proc_null_status (mpi_api_send_recv.cc:65-67), From n the
   status built from message n (MpiMessage::buildStatus).  Empty, the empty status of the
   MPI standard, is never made by the code. *)
Inductive status : Type := Unset | Null | From (n : nat) | Empty.

(* MpiRequest, mpi_request.h:146-261: complete_, persistent_op_ != nullptr, stat_ and
   the arguments; r_map says that req_map_ has it.  Cancelling is left out: no MPI call
   reaches MpiRequest::cancel. *)
Record rq : Type := Rq { r_args : args; r_pers : bool; r_done : bool; r_stat : status;
                         r_map : bool }.

(* What a blocking call waits for: its requests, and the receive whose status it
   returns, with true if the caller passed MPI_STATUS_IGNORE.  c_null: the call stores
   proc_null_status at its end. *)
Record call : Type := Cl { c_wait : list nat; c_recv : option nat; c_ign : bool;
                           c_null : bool }.

(* One rank.  objs: the MpiRequest objects that exist; next: the number of objects made,
   which is also the next number of an object (for those in req_map_ it plays the part of
   req_counter_); ops: the transfers handed to MpiQueue::send or recv, with the request
   (key) each completes; ended: the transfers that are over; inside: the blocking call
   the rank is in; dead: a null pointer or a deleted request was written, or an error
   thrown. *)
Record rank : Type := Rank { objs : nat -> option rq; next : nat;
                             ops : list (nat * args); ended : list nat;
                             inside : option call; dead : bool }.

Definition start_rank : rank := Rank (fun _ => None) 0 [] [] None false.

Definition put (f : nat -> option rq) (i : nat) (r : option rq) : nat -> option rq :=
  fun x => if x =? i then r else f x.

Definition set_obj (i : nat) (r : option rq) (s : rank) : rank :=
  Rank (put (objs s) i r) (next s) (ops s) (ended s) (inside s) (dead s).

(* What a call gives back: nothing, a handle, a status with the handle left to the
   caller (None: MPI_REQUEST_NULL), the flag of a test, the index of a waitany (None:
   MPI_UNDEFINED). *)
Inductive out : Type :=
| ONone | OHandle (i : nat) | OWait (st : status) (h : option nat)
| OTest (flag : bool) (st : status) (h : option nat)
| OAny (ix : option nat) (st : status) (h : option nat) | OFail.

Inductive act : Type :=
| Post (a : args)                 (* MPI_Isend, MPI_Irecv *)
| Init (a : args)                 (* MPI_Send_init, MPI_Recv_init *)
| Start (i : nat)                 (* MPI_Start; MPI_Startall is a list of these *)
| Wait (h : option nat)           (* MPI_Wait; MPI_Waitall is a list of these *)
| Any (hs : list (option nat))    (* MPI_Waitany *)
| Test (h : option nat)           (* MPI_Test *)
| Free (h : option nat)           (* MPI_Request_free *)
| Enter (a : args) (ign : bool)   (* MPI_Send, MPI_Recv is called; ign: MPI_STATUS_IGNORE *)
| EnterSR (a b : args) (ign : bool) (* MPI_Sendrecv is called *)
| Leave                           (* the blocking call returns *)
| Finish (k n : nat).             (* transfer k is over; a receive got message n *)

Definition fail (s : rank) : rank * out :=
  (Rank (objs s) (next s) (ops s) (ended s) (inside s) true, OFail).

(* MpiQueue::send or MpiQueue::recv with key i *)
Definition issue (i : nat) (a : args) (s : rank) : rank :=
  Rank (objs s) (next s) (ops s ++ [(i, a)]) (ended s) (inside s) (dead s).

(* MpiRequest::construct, mpi_request.h:157-174; addRequestPtr, mpi_api.cc:553-558 *)
Definition make (a : args) (pers done : bool) (st : status) (mapped : bool) (s : rank) : rank :=
  Rank (put (objs s) (next s) (Some (Rq a pers done st mapped))) (S (next s))
       (ops s) (ended s) (inside s) (dead s).

(* isend and doIsend, mpi_api_send_recv.cc:269-309: complete at once for MPI_PROC_NULL;
   irecv, :387-426: complete at once with proc_null_status. *)
Definition null_status (k : kind) : status := match k with Snd => Unset | Rcv => Null end.
Definition post (a : args) (mapped : bool) (s : rank) : rank :=
  match a_peer a with
  | None => make a false true (null_status (a_kind a)) mapped s
  | Some _ => issue (next s) a (make a false false Unset mapped s)
  end.

(* getRequest, mpi_api.cc:482-496 *)
Definition get (s : rank) (i : nat) : option rq :=
  match objs s i with Some r => if r_map r then Some r else None | None => None end.

Definition with_done (r : rq) (d : bool) (st : status) : rq :=
  Rq (r_args r) (r_pers r) d st (r_map r).

(* doStart, mpi_api_send_recv.cc:171-193 *)
Definition do_start (i : nat) (s : rank) : rank * out :=
  match get s i with
  | None => fail s
  | Some r =>
    if r_pers r then
      match a_peer (r_args r) with
      | None => (set_obj i (Some (with_done r true (r_stat r))) s, ONone)
      | Some _ => (issue i (r_args r) (set_obj i (Some (with_done r false (r_stat r))) s), ONone)
      end
    else fail s
  end.

(* finalizeWaitRequest, mpi_api_wait.cc:105-116 *)
Definition finalize (i : nat) (r : rq) (s : rank) : rank * option nat :=
  if r_pers r then (s, Some i) else (set_obj i None s, None).

(* doWait, mpi_api_wait.cc:81-103.  progressLoop (mpi_queue.cc:447-469) keeps handling
   messages until the request is complete: the call returns (Some) only then. *)
Definition do_wait (h : option nat) (s : rank) : option (rank * out) :=
  match h with
  | None => Some (s, OWait Unset None)
  | Some i =>
    match get s i with
    | None => Some (fail s)
    | Some r => if r_done r
                then let (s', h') := finalize i r s in Some (s', OWait (r_stat r) h')
                else None
    end
  end.

(* The loops of waitany, mpi_api_wait.cc:169-195, 204-224: the first complete request.
   getRequest throws for an unknown handle before it (bad). *)
Fixpoint first_done (s : rank) (ix : nat) (hs : list (option nat))
  : option (nat * nat * rq) * bool :=
  match hs with
  | [] => (None, false)
  | None :: r => first_done s (S ix) r
  | Some i :: r =>
    match get s i with
    | None => (None, true)
    | Some q => if r_done q then (Some (ix, i, q), false) else first_done s (S ix) r
    end
  end.

(* waitany, mpi_api_wait.cc:156-230: aborts when all handles are null *)
Definition do_any (hs : list (option nat)) (s : rank) : option (rank * out) :=
  match first_done s 0 hs with
  | (Some (ix, i, r), _) =>
    let (s', h') := finalize i r s in Some (s', OAny (Some ix) (r_stat r) h')
  | (None, true) => Some (fail s)
  | (None, false) => if forallb (fun h => match h with None => true | _ => false end) hs
                     then Some (fail s) else None
  end.

(* test, mpi_api_test.cc:54-79: a complete request is deleted, a persistent one too *)
Definition do_test (h : option nat) (s : rank) : rank * out :=
  match h with
  | None => (s, OTest true Unset None)
  | Some i =>
    match get s i with
    | None => fail s
    | Some r => if r_done r then (set_obj i None s, OTest true (r_stat r) None)
                else (s, OTest false Unset (Some i))
    end
  end.

(* request_free, mpi_api_send_recv.cc:139-169: an incomplete request is taken out of
   req_map_ and never deleted *)
Definition do_free (h : option nat) (s : rank) : rank * out :=
  match h with
  | None => (s, ONone)
  | Some i =>
    match get s i with
    | None => fail s
    | Some r => if r_done r then (set_obj i None s, ONone)
                else (set_obj i (Some (Rq (r_args r) (r_pers r) (r_done r) (r_stat r) false)) s, ONone)
    end
  end.

Definition enter (c : call) (s : rank) : rank :=
  Rank (objs s) (next s) (ops s) (ended s) (Some c) (dead s).

(* send, mpi_api_send_recv.cc:69-96; recv and doRecv, :311-351.  A request is made and
   waited for unless the partner is MPI_PROC_NULL. *)
Definition do_enter (a : args) (ign : bool) (s : rank) : rank :=
  match a_peer a, a_kind a with
  | None, Snd => enter (Cl [] None true false) s
  | None, Rcv => enter (Cl [] None ign true) s
  | Some _, Snd => enter (Cl [next s] None true false) (post a false s)
  | Some _, Rcv => enter (Cl [next s] (Some (next s)) ign false) (post a false s)
  end.

(* sendrecv, mpi_api_send_recv.cc:98-137 *)
Definition do_enter_sr (a b : args) (ign : bool) (s : rank) : rank :=
  match a_peer a, a_peer b with
  | None, None => enter (Cl [] None ign true) s
  | Some _, None => enter (Cl [next s] None ign true) (post a false s)
  | None, Some _ => do_enter b ign s
  | Some _, Some _ =>
    enter (Cl [next s; S (next s)] (Some (S (next s))) ign false) (post b false (post a false s))
  end.

Definition complete (s : rank) (i : nat) : bool :=
  match objs s i with Some r => r_done r | None => false end.

Definition delete (l : list nat) (s : rank) : rank := fold_left (fun s i => set_obj i None s) l s.

Definition out_of (s : rank) : rank :=
  Rank (objs s) (next s) (ops s) (ended s) None (dead s).

(* The end of send, recv, doRecv and sendrecv: progressLoop until the requests are
   complete; the status goes to the caller; the requests are deleted.
   `*status = proc_null_status` (:112, :116, :324) is done even for MPI_STATUS_IGNORE,
   which is the null pointer (mpi_types.h:96). *)
Definition do_leave (s : rank) : option (rank * out) :=
  match inside s with
  | None => None
  | Some c =>
    if forallb (complete s) (c_wait c) then
      if c_null c then
        if c_ign c then Some (fail s)
        else Some (out_of (delete (c_wait c) s), OWait Null None)
      else
        let st := match c_recv c with
                  | Some i => match objs s i with Some r => r_stat r | None => Unset end
                  | None => Unset
                  end in
        Some (out_of (delete (c_wait c) s), if c_ign c then ONone else OWait st None)
    else None
  end.

(* MpiRequest::complete(MpiMessage), mpi_request.cc:108-115, for a receive
   (finalizeRecv, mpi_queue.cc:251-260), and complete(), mpi_request.h:189-191, for a
   send (eager0.cc:81, eager1.cc:78, rendezvous_rdma.cc:154).  The key is a plain
   pointer: if the object is gone this writes freed memory. *)
Definition new_stat (a : args) (n : nat) (old : status) : status :=
  match a_kind a with Snd => old | Rcv => From n end.
Definition do_finish (k n : nat) (s : rank) : option (rank * out) :=
  match nth_error (ops s) k with
  | None => None
  | Some (i, a) =>
    if existsb (Nat.eqb k) (ended s) then None else
    match objs s i with
    | None => Some (fail s)
    | Some r => Some (Rank (put (objs s) i (Some (with_done r true (new_stat a n (r_stat r)))))
                           (next s) (ops s) (k :: ended s) (inside s) (dead s), ONone)
    end
  end.

(* One step; None: not possible now.  Inside a blocking call messages are handled and
   nothing else is called; nothing happens after a crash. *)
Definition step (x : act) (s : rank) : option (rank * out) :=
  if dead s then None else
  match x with
  | Finish k n => do_finish k n s
  | Leave => do_leave s
  | _ =>
    match inside s with
    | Some _ => None
    | None =>
      match x with
      | Post a => Some (post a true s, OHandle (next s))
      | Init a => Some (make a true false Unset true s, OHandle (next s))
      | Start i => Some (do_start i s)
      | Wait h => do_wait h s
      | Any hs => do_any hs s
      | Test h => Some (do_test h s)
      | Free h => Some (do_free h s)
      | Enter a ign => Some (do_enter a ign s, ONone)
      | EnterSR a b ign => Some (do_enter_sr a b ign s, ONone)
      | Leave | Finish _ _ => None
      end
    end
  end.

Fixpoint run (l : list act) (s : rank) : option (rank * list out) :=
  match l with
  | [] => Some (s, [])
  | x :: r =>
    match step x s with
    | None => None
    | Some (s1, o) => match run r s1 with None => None | Some (s2, os) => Some (s2, o :: os) end
    end
  end.
