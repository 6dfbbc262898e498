(* Completing MPI requests: the test and wait families.
   /repo/sumi-mpi/mpi_api_wait.cc:81-311, /repo/sumi-mpi/mpi_api_test.cc:54-231,
   /repo/sumi-mpi/mpi_request.h:146-261, /repo/sumi-mpi/mpi_api.cc:482-496, 560-571,
   /repo/sumi-mpi/mpi_queue/mpi_queue.cc:447-500 *)
From Coq Require Import List Bool Arith.
Import ListNotations.

(* MpiRequest, mpi_request.h:146-261: complete_, persistent_op_ != nullptr, stat_.
   A status is one number here. *)
Record req : Type := { rq_done : bool; rq_pers : bool; rq_stat : nat }.

(* req_map_ *)
Definition table : Type := nat -> option req.
(* MPI_Request; MPI_REQUEST_NULL is None *)
Definition handle : Type := option nat.

Definition set (t : table) (id : nat) (v : option req) : table :=
  fun x => if Nat.eqb x id then v else t x.

(* One message handled by incomingMessage (mpi_queue.cc) completes some requests
   with a status, MpiRequest::complete (mpi_request.cc:108-115).  A request completes
   once; one that is gone is not touched. *)
Definition event : Type := list (nat * nat).
Definition complete_one (t : table) (e : nat * nat) : table :=
  match t (fst e) with
  | Some r => if rq_done r then t
              else set t (fst e) (Some {| rq_done := true; rq_pers := rq_pers r;
                                          rq_stat := snd e |})
  | None => t
  end.
Definition apply_event (t : table) (e : event) : table := fold_left complete_one e t.

(* MpiQueue::progressLoop and startProgressLoop, mpi_queue.cc:447-500: handle
   messages until the condition holds.  None: no more message comes, the rank blocks
   for ever. *)
Fixpoint progress_until (f : table -> bool) (t : table) (evs : list event)
  : option (table * list event) :=
  if f t then Some (t, evs) else
  match evs with
  | [] => None
  | e :: r => progress_until f (apply_event t e) r
  end.

Definition is_complete (t : table) (id : nat) : bool :=
  match t id with Some r => rq_done r | None => false end.

(* finalizeWaitRequest, mpi_api_wait.cc:105-116 *)
Definition finalize (t : table) (id : nat) (r : req) : table * handle * nat :=
  if rq_pers r then (t, Some id, rq_stat r) else (set t id None, None, rq_stat r).

(* doWait, mpi_api_wait.cc:81-103.  A handle that is not in req_map_ throws
   (getRequest, mpi_api.cc:482-496), which is None, as is blocking for ever. *)
Definition do_wait (t : table) (evs : list event) (h : handle)
  : option (table * list event * handle * option nat) :=
  match h with
  | None => Some (t, evs, None, None)
  | Some id =>
    match t id with
    | None => None
    | Some _ =>
      match progress_until (fun t => is_complete t id) t evs with
      | None => None
      | Some (t1, evs1) =>
        match t1 id with
        | None => None
        | Some r => let '(t2, h2, s) := finalize t1 id r in Some (t2, evs1, h2, Some s)
        end
      end
    end
  end.

(* waitall, mpi_api_wait.cc:118-154 *)
Fixpoint waitall (t : table) (evs : list event) (hs : list handle)
  : option (table * list event * list handle * list (option nat)) :=
  match hs with
  | [] => Some (t, evs, [], [])
  | h :: r =>
    match do_wait t evs h with
    | None => None
    | Some (t1, evs1, h1, s) =>
      match waitall t1 evs1 r with
      | None => None
      | Some (t2, evs2, r2, ss) => Some (t2, evs2, h1 :: r2, s :: ss)
      end
    end
  end.

(* The scanning loop of waitany, mpi_api_wait.cc:172-195 and 208-228: the first
   request of the array that is complete. *)
Fixpoint scan_first (t : table) (i : nat) (hs : list handle) : option (nat * nat * req) :=
  match hs with
  | [] => None
  | None :: r => scan_first t (S i) r
  | Some id :: r =>
    match t id with
    | Some q => if rq_done q then Some (i, id, q) else scan_first t (S i) r
    | None => scan_first t (S i) r
    end
  end.

Fixpoint set_handle (hs : list handle) (i : nat) (h : handle) : list handle :=
  match hs, i with
  | [], _ => []
  | _ :: r, 0 => h :: r
  | x :: r, S k => x :: set_handle r k h
  end.

Definition nonnull (hs : list handle) : list nat :=
  flat_map (fun h => match h with Some id => [id] | None => [] end) hs.

(* waitany, mpi_api_wait.cc:156-237.  All handles null aborts (None). *)
Definition waitany (t : table) (evs : list event) (hs : list handle)
  : option (table * list event * list handle * nat * nat) :=
  let finish t evs i id q :=
    let '(t2, h2, s) := finalize t id q in Some (t2, evs, set_handle hs i h2, i, s) in
  match scan_first t 0 hs with
  | Some (i, id, q) => finish t evs i id q
  | None =>
    match nonnull hs with
    | [] => None
    | ids =>
      match progress_until (fun t => existsb (is_complete t) ids) t evs with
      | None => None
      | Some (t1, evs1) =>
        match scan_first t1 0 hs with
        | Some (i, id, q) => finish t1 evs1 i id q
        | None => None
        end
      end
    end
  end.

(* The scanning loops of waitsome, mpi_api_wait.cc:256-273 and 282-297: every
   complete request is finalized; its status goes to the place of its index. *)
Fixpoint scan_all (t : table) (i : nat) (hs : list handle)
  : table * list handle * list nat * list (option nat) :=
  match hs with
  | [] => (t, [], [], [])
  | h :: r =>
    match h with
    | None => let '(t2, r2, ix, ss) := scan_all t (S i) r in (t2, h :: r2, ix, None :: ss)
    | Some id =>
      match t id with
      | Some q =>
        if rq_done q then
          let '(t1, h1, s) := finalize t id q in
          let '(t2, r2, ix, ss) := scan_all t1 (S i) r in
          (t2, h1 :: r2, i :: ix, Some s :: ss)
        else let '(t2, r2, ix, ss) := scan_all t (S i) r in (t2, h :: r2, ix, None :: ss)
      | None => let '(t2, r2, ix, ss) := scan_all t (S i) r in (t2, h :: r2, ix, None :: ss)
      end
    end
  end.

(* waitsome, mpi_api_wait.cc:239-311: table, messages, handles, indices, statuses by
   array position *)
Definition waitsome (t : table) (evs : list event) (hs : list handle)
  : option (table * list event * list handle * list nat * list (option nat)) :=
  let '(t1, hs1, ix, ss) := scan_all t 0 hs in
  match ix with
  | _ :: _ => Some (t1, evs, hs1, ix, ss)
  | [] =>
    match progress_until (fun t => existsb (is_complete t) (nonnull hs1)) t1 evs with
    | None => None
    | Some (t2, evs2) =>
      let '(t3, hs3, ix3, ss3) := scan_all t2 0 hs1 in
      Some (t3, evs2, hs3, ix3, ss3)
    end
  end.

(* test, mpi_api_test.cc:54-80, with eraseRequestPtr (mpi_api.cc:560-571), whether
   the request is persistent or not.  test_delay_us_ is taken as zero. *)
Definition test (t : table) (h : handle) : option (table * handle * bool * option nat) :=
  match h with
  | None => Some (t, None, true, None)
  | Some id =>
    match t id with
    | None => None
    | Some r => if rq_done r then Some (set t id None, None, true, Some (rq_stat r))
                else Some (t, h, false, None)
    end
  end.

(* testall, mpi_api_test.cc:111-151 *)
Fixpoint testall (t : table) (hs : list handle)
  : option (table * list handle * bool * list (option nat)) :=
  match hs with
  | [] => Some (t, [], true, [])
  | h :: r =>
    match test t h with
    | None => None
    | Some (t1, h1, ok, s) =>
      if ok then
        match testall t1 r with
        | None => None
        | Some (t2, r2, ok2, ss) => Some (t2, h1 :: r2, ok2, s :: ss)
        end
      else Some (t1, h1 :: r, false, [])
    end
  end.

(* testany, mpi_api_test.cc:153-192: the index, or None for MPI_UNDEFINED; the flag
   is set when an index is, or for an empty array. *)
Fixpoint testany_loop (t : table) (i : nat) (hs : list handle)
  : option (table * list handle * option (nat * option nat)) :=
  match hs with
  | [] => Some (t, [], None)
  | h :: r =>
    match test t h with
    | None => None
    | Some (t1, h1, ok, s) =>
      if ok then Some (t1, h1 :: r, Some (i, s))
      else match testany_loop t1 (S i) r with
           | None => None
           | Some (t2, r2, res) => Some (t2, h1 :: r2, res)
           end
    end
  end.
Definition testany (t : table) (hs : list handle) := testany_loop t 0 hs.

(* testsome, mpi_api_test.cc:194-231 *)
Fixpoint testsome_loop (t : table) (i : nat) (hs : list handle)
  : option (table * list handle * list nat * list (option nat)) :=
  match hs with
  | [] => Some (t, [], [], [])
  | h :: r =>
    match test t h with
    | None => None
    | Some (t1, h1, ok, s) =>
      match testsome_loop t1 (S i) r with
      | None => None
      | Some (t2, r2, ix, ss) =>
        Some (t2, h1 :: r2, if ok then i :: ix else ix, s :: ss)
      end
    end
  end.
Definition testsome (t : table) (hs : list handle) := testsome_loop t 0 hs.
