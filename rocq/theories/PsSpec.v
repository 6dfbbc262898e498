(* The life of requests as the MPI standard has it (MPI 3.1, sections 3.7.3 to 3.9,
   3.11): a request is inactive, active, or active and over.  Written without the code's
   flags; the words for arguments, statuses, calls and results are shared with PsModel. *)
From Coq Require Import List Bool Arith.
Import ListNotations.
From Verif Require Import PsModel.

Inductive phase : Type := Idle | Flying | Over (st : status).

(* m_live: the program still has a handle *)
Record mq : Type := Mq { m_args : args; m_pers : bool; m_ph : phase; m_live : bool }.

Inductive result : Type := NoStatus | NullStatus | StatusOf (i : nat).
Record mpi : Type := Mpi { reqs : nat -> option mq; made : nat; given : list (nat * args);
                           over : list nat; within : option (list nat * result) }.
Definition start_mpi : mpi := Mpi (fun _ => None) 0 [] [] None.

Definition upd (f : nat -> option mq) (i : nat) (q : mq) : nat -> option mq :=
  fun x => if x =? i then Some q else f x.
Definition set_req (i : nat) (q : mq) (m : mpi) : mpi :=
  Mpi (upd (reqs m) i q) (made m) (given m) (over m) (within m).
Definition set_within (w : option (list nat * result)) (m : mpi) : mpi :=
  Mpi (reqs m) (made m) (given m) (over m) w.

(* An operation begins: with MPI_PROC_NULL it is over at once and a receive reports the
   null process; otherwise the transfer is given to the network. *)
Definition begun (a : args) : phase :=
  match a_peer a with
  | None => Over (match a_kind a with Rcv => Null | Snd => Unset end)
  | Some _ => Flying
  end.
Definition gives (i : nat) (a : args) : list (nat * args) :=
  match a_peer a with None => [] | Some _ => [(i, a)] end.

(* a new request that begins at once *)
Definition new_active (a : args) (live : bool) (m : mpi) : mpi :=
  Mpi (upd (reqs m) (made m) (Mq a false (begun a) live)) (S (made m))
      (given m ++ gives (made m) a) (over m) (within m).
Definition new_idle (a : args) (m : mpi) : mpi :=
  Mpi (upd (reqs m) (made m) (Mq a true Idle true)) (S (made m)) (given m) (over m) (within m).

Definition phase_of (m : mpi) (i : nat) : option (mq * phase) :=
  match reqs m i with
  | Some q => if m_live q then Some (q, m_ph q) else None
  | None => None
  end.

(* completing: a persistent request becomes inactive, another one is gone *)
Definition retire (i : nat) (q : mq) (m : mpi) : mpi :=
  set_req i (Mq (m_args q) (m_pers q) (if m_pers q then Idle else m_ph q) (m_pers q)) m.
Definition left_handle (i : nat) (q : mq) : option nat := if m_pers q then Some i else None.

Definition is_active (m : mpi) (h : option nat) : bool :=
  match h with
  | None => false
  | Some i => match phase_of m i with
              | Some (_, Idle) | None => false
              | Some _ => true
              end
  end.
Fixpoint first_over (m : mpi) (ix : nat) (hs : list (option nat))
  : option (nat * nat * mq * status) :=
  match hs with
  | [] => None
  | h :: r =>
    match h with
    | Some i => match phase_of m i with
                | Some (q, Over st) => Some (ix, i, q, st)
                | _ => first_over m (S ix) r
                end
    | None => first_over m (S ix) r
    end
  end.

Definition is_over (m : mpi) (i : nat) : bool :=
  match reqs m i with Some q => match m_ph q with Over _ => true | _ => false end | None => false end.

(* A step of an MPI process.  None: the call does not return yet, or the program is
   wrong (it uses a handle that is gone, or starts a request that is not inactive). *)
Definition mstep (x : act) (m : mpi) : option (mpi * out) :=
  match x with
  | Finish k n =>
    match nth_error (given m) k with
    | None => None
    | Some (i, a) =>
      if existsb (Nat.eqb k) (over m) then None else
      match reqs m i with
      | None => None
      | Some q =>
        let st := match a_kind a with Rcv => From n | Snd => Unset end in
        Some (Mpi (upd (reqs m) i (Mq (m_args q) (m_pers q) (Over st) (m_live q)))
                  (made m) (given m) (k :: over m) (within m), ONone)
      end
    end
  | Leave =>
    match within m with
    | None => None
    | Some (l, w) =>
      if forallb (is_over m) l then
        Some (set_within None m,
              match w with
              | NoStatus => ONone
              | NullStatus => OWait Null None
              | StatusOf i => OWait (match reqs m i with
                                     | Some q => match m_ph q with Over st => st | _ => Unset end
                                     | None => Unset end) None
              end)
      else None
    end
  | _ =>
    match within m with
    | Some _ => None
    | None =>
      match x with
      | Post a => Some (new_active a true m, OHandle (made m))
      | Init a => Some (new_idle a m, OHandle (made m))
      | Start i =>
        match phase_of m i with
        | Some (q, Idle) =>
          Some (Mpi (upd (reqs m) i (Mq (m_args q) (m_pers q) (begun (m_args q)) true)) (made m)
                    (given m ++ gives i (m_args q)) (over m) None, ONone)
        | _ => None
        end
      | Wait None => Some (m, OWait Empty None)
      | Wait (Some i) =>
        match phase_of m i with
        | Some (_, Idle) => Some (m, OWait Empty (Some i))
        | Some (q, Over st) => Some (retire i q m, OWait st (left_handle i q))
        | _ => None
        end
      | Any hs =>
        match first_over m 0 hs with
        | Some (ix, i, q, st) => Some (retire i q m, OAny (Some ix) st (left_handle i q))
        | None => if existsb (is_active m) hs then None else Some (m, OAny None Empty None)
        end
      | Test None => Some (m, OTest true Empty None)
      | Test (Some i) =>
        match phase_of m i with
        | Some (_, Idle) => Some (m, OTest true Empty (Some i))
        | Some (_, Flying) => Some (m, OTest false Unset (Some i))
        | Some (q, Over st) => Some (retire i q m, OTest true st (left_handle i q))
        | None => None
        end
      | Free None => None
      | Free (Some i) =>
        match phase_of m i with
        | Some (q, ph) => Some (set_req i (Mq (m_args q) (m_pers q) ph false) m, ONone)
        | None => None
        end
      | Enter a ign =>
        let w := match a_kind a with
                 | Snd => NoStatus
                 | Rcv => if ign then NoStatus else
                          match a_peer a with None => NullStatus | Some _ => StatusOf (made m) end
                 end in
        match a_peer a with
        | None => Some (set_within (Some ([], w)) m, ONone)
        | Some _ => Some (set_within (Some ([made m], w)) (new_active a false m), ONone)
        end
      | EnterSR a b ign =>
        let m1 := match a_peer a with None => m | Some _ => new_active a false m end in
        let m2 := match a_peer b with None => m1 | Some _ => new_active b false m1 end in
        let w := if ign then NoStatus else
                 match a_peer b with None => NullStatus | Some _ => StatusOf (made m1) end in
        Some (set_within (Some (seq (made m) (made m2 - made m), w)) m2, ONone)
      | Leave | Finish _ _ => None
      end
    end
  end.

Fixpoint mrun (l : list act) (m : mpi) : option (mpi * list out) :=
  match l with
  | [] => Some (m, [])
  | x :: r =>
    match mstep x m with
    | None => None
    | Some (m1, o) => match mrun r m1 with None => None | Some (m2, os) => Some (m2, o :: os) end
    end
  end.

(* A call a correct program may make: handles it holds, inactive requests started,
   sendrecv a send and a receive. *)
Definition holds (m : mpi) (h : option nat) : Prop :=
  match h with None => True | Some i => phase_of m i <> None end.
Definition legal (x : act) (m : mpi) : Prop :=
  match x with
  | Start i => exists q, phase_of m i = Some (q, Idle)
  | Wait h | Test h => holds m h
  | Any hs => Forall (holds m) hs
  | Free h => exists i, h = Some i /\ holds m h
  | EnterSR a b _ => a_kind a = Snd /\ a_kind b = Rcv
  | _ => True
  end.

(* The part of it on which the code does as MPI says: only active requests are waited
   for, persistent requests are not tested, a receive from MPI_PROC_NULL is not
   persistent and, if blocking, has a status. *)
Definition active_handle (m : mpi) (h : option nat) : Prop := is_active m h = true.
Definition tidy (x : act) (m : mpi) : Prop :=
  legal x m /\
  match x with
  | Init a => a_kind a = Rcv -> a_peer a <> None
  | Wait h => active_handle m h
  | Any hs => Forall (fun h => h = None \/ active_handle m h) hs /\ existsb (is_active m) hs = true
  | Test h => active_handle m h /\
              forall i q ph, h = Some i -> phase_of m i = Some (q, ph) -> m_pers q = false
  | Enter a ign => a_kind a = Rcv -> a_peer a = None -> ign = false
  | EnterSR a b ign => a_peer b = None -> ign = false
  | _ => True
  end.

(* every action of the list meets P at its point of the run *)
Fixpoint along (P : act -> mpi -> Prop) (l : list act) (m : mpi) : Prop :=
  match l with
  | [] => True
  | x :: r => P x m /\ match mstep x m with Some (m1, _) => along P r m1 | None => True end
  end.
