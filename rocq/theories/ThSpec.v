(** Programs that use threads the way POSIX allows, and what they may rely
    on. *)
From Coq Require Import List Arith Bool Lia.
From Verif Require Import ThModel.
Import ListNotations.

Definition nobody_joins (w : world) (u : nat) : Prop :=
  forall t, t < n w -> md (th w t) <> Joining u /\ md (th w t) <> JoinReady u.

(** A thread that has not been joined, and has not ended detached, may be
    joined if it is not detached, and detached, unless another thread is
    joining it; nobody joins itself.  The main function returns when there is
    no such thread any more.  pthread_exit is not used. *)
Definition legal (w : world) (l : label) : Prop :=
  match l with
  | Call me (OJoin u) => In u (subs w) /\ u <> me /\ det (th w u) = false /\ nobody_joins w u
  | Call me (ODetach u) => In u (subs w) /\ nobody_joins w u
  | Call me (OWake j) => j < n w /\ md (th w j) = Io
  | Call me OReturn => me = 0 -> subs w = []
  | Call me OExit => False
  | _ => True
  end.

(** States a legal program can reach. *)
Inductive reach : world -> Prop :=
  | reach_start : reach start
  | reach_step w l w' : reach w -> legal w l -> step w l (Good w') -> reach w'.

(** States any program can reach. *)
Inductive gets : world -> list label -> out -> Prop :=
  | gets_nil w : gets w [] (Good w)
  | gets_cons w l w' ls o : step w l (Good w') -> gets w' ls o -> gets w (l :: ls) o
  | gets_fail w l o : step w l o -> (forall w', o <> Good w') -> gets w [l] o.
