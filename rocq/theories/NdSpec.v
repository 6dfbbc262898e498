(** What the delivery of messages on a node is measured by. *)
From Coq Require Import List Arith Bool.
From Verif Require Import NdModel.
Import ListNotations.

(** The messages that arrived, in order. *)
Definition arrived (l : list op) : list msg :=
  flat_map (fun a => match a with Arrive m => [m] | _ => [] end) l.

(** The queue a message is meant for: the sender's for an acknowledgement, otherwise the receiver's. *)
Definition meant (m : msg) : option nat :=
  match m with mkmsg _ _ s true _ => s | mkmsg _ r _ false _ => r end.
(** Is the message meant for queue [c] of process [k]? *)
Definition cq_is (c : option nat) (m : msg) : bool :=
  match c, meant m with
  | Some a, Some b => a =? b
  | None, None => true
  | _, _ => false
  end.
Definition aims (k : key) (c : option nat) (m : msg) : bool :=
  (fst (m_key m) =? fst k) && (snd (m_key m) =? snd k) && cq_is c m.

(** The messages that were dealt with, in order. *)
Definition ended (n : node) : list msg := map snd (out n).

(** Process [k] is running with transport [t]. *)
Definition runs (k : key) (t : tport) (n : node) : Prop :=
  exists s, srv n = Some s /\ find2 k (procs s) = Some (Some t).

(** Every reserved queue number of every running process has its callback. *)
Definition installed (n : node) : Prop :=
  forall k t, runs k t n -> ~ In None (queues t).

(** How the node has to be used so that nothing fails: messages come in while no number is reserved
    without callback; a process starts once, works while it runs and does not end before the callbacks
    of registerLib were executed; a callback is installed for a reserved number for which no message
    has come. *)
Definition proper (a : op) (n : node) : Prop :=
  match a with
  | Arrive _ | RunNext => installed n
  | Start k => forall t, ~ runs k t n
  | Stop k => (exists t, runs k t n) /\ delayed (nos n) = []
  | AllocId k | DeallocCq k _ => exists t, runs k t n
  | AllocCq k i _ => exists t, runs k t n /\ i < length (queues t) /\
                       forall m, ~ In (i, m) (held t)
  end.
Fixpoint proper_run (l : list op) (n : node) : Prop :=
  match l with
  | [] => True
  | a :: t => proper a n /\ forall n', step a n = Ok n' -> proper_run t n'
  end.

(** No message arrives while a callback of registerLib is outstanding. *)
Fixpoint quiet_run (l : list op) (n : node) : Prop :=
  match l with
  | [] => True
  | a :: t => (match a with Arrive _ => delayed (nos n) = [] | _ => True end) /\
              forall n', step a n = Ok n' -> quiet_run t n'
  end.

(** *** Queue numbers of one process *)
Inductive qop := Reserve | Release (i : nat).
Fixpoint reserve_run (l : list qop) (t : tport) (used : list nat) : tport * list nat :=
  match l with
  | [] => (t, used)
  | Reserve :: r => let '(i, t') := tp_alloc_id t in reserve_run r t' (i :: used)
  | Release i :: r => reserve_run r (tp_dealloc i t) (filter (fun j => negb (j =? i)) used)
  end.
(** Only numbers in use are given back, and never number 0. *)
Fixpoint releases_ok (l : list qop) (t : tport) (used : list nat) : Prop :=
  match l with
  | [] => True
  | Reserve :: r => let '(i, t') := tp_alloc_id t in releases_ok r t' (i :: used)
  | Release i :: r => In i used /\ releases_ok r (tp_dealloc i t) (filter (fun j => negb (j =? i)) used)
  end.

(** *** Libraries of one operating system *)
Inductive lop (R : Type) := Make (l n : nat) | Destroy (l n : nat) | Ask (n : nat) (r : R) | Next.
Arguments Make {R}. Arguments Destroy {R}. Arguments Ask {R}. Arguments Next {R}.
(** The state and the calls made, in order. *)
Definition lstep {R} (a : lop R) (o : os R) : os R * list (nat * R) :=
  match a with
  | Make l n => (os_register l n o, [])
  | Destroy l n => (os_unregister l n o, [])
  | Ask n r => let '(o', c) := os_request n r o in
               (o', match c with Some l => [(l, r)] | None => [] end)
  | Next => match os_next o with Some (o', c) => (o', [c]) | None => (o, []) end
  end.
Fixpoint lrun {R} (l : list (lop R)) (o : os R) : os R * list (nat * R) :=
  match l with
  | [] => (o, [])
  | a :: t => let '(o', c) := lstep a o in let '(o'', c') := lrun t o' in (o'', c ++ c')
  end.
(** The library objects that exist, with their names. *)
Fixpoint alive {R} (l : list (lop R)) (live : list (nat * nat)) : list (nat * nat) :=
  match l with
  | [] => live
  | Make b n :: t => alive t ((b, n) :: live)
  | Destroy b _ :: t => alive t (filter (fun p => negb (fst p =? b)) live)
  | _ :: t => alive t live
  end.
(** Objects are made once and destroyed under their own name; with [one_name], no two existing objects
    have the same name. *)
Fixpoint objects {R} (one_name : bool) (l : list (lop R)) (live : list (nat * nat)) : Prop :=
  match l with
  | [] => True
  | Make b n :: t => ~ In b (map fst live) /\ (one_name = true -> ~ In n (map snd live)) /\
                     objects one_name t ((b, n) :: live)
  | Destroy b n :: t => In (b, n) live /\ objects one_name t (filter (fun p => negb (fst p =? b)) live)
  | _ :: t => objects one_name t live
  end.
Definition os0 {R} : os R := mkos [] [] [] [].
