(** The executor of collective schedules: class DagCollectiveActor,
    sumi/collective_actor.cc:147-425.

    Actions are named by their id (Action::messageId, see MidProp.v).  The calls
    startAction, clearAction and clearDependencies nest; the model keeps their
    activation records on an explicit stack.
    SIMPLIFIED: ranks of the communicator are all resolved (the branch at
    351-357 for unresolved_rank and rankResolved 376-382 are left out); what the
    actions do to buffers is in the models of the single collectives. *)
From Coq Require Import List Arith Lia Bool.
Import ListNotations.

(** A call addDependency(precursor, ac); [None] is a null precursor. *)
Definition dep := (option nat * nat)%type.

(** initial_actions_ (a set ordered by id), pending_comms_ (a multimap from the
    id of the precursor) and the join counters. *)
Record built := { b_init : list nat; b_pend : list (nat * nat); b_join : nat -> nat }.

Definition upd (f : nat -> nat) (i x : nat) : nat -> nat := fun j => if j =? i then x else f j.

(** addDependency and addDependencyToMap, sumi/collective_actor.cc:334-347,
    349-374 (resolved case) and 384-402. *)
Definition add_dependency (b : built) (d : dep) : built :=
  match d with
  | (Some p, ac) =>
      {| b_init := remove Nat.eq_dec ac (b_init b);
         b_pend := (p, ac) :: b_pend b;
         b_join := upd (b_join b) ac (S (b_join b ac)) |}
  | (None, ac) =>
      if b_join b ac =? 0 then
        {| b_init := if in_dec Nat.eq_dec ac (b_init b) then b_init b else ac :: b_init b;
           b_pend := b_pend b; b_join := b_join b |}
      else b
  end.

Definition build (ds : list dep) : built :=
  fold_left add_dependency ds {| b_init := []; b_pend := []; b_join := fun _ => 0 |}.

(** Activation records: the loop of start(), startAction(ac), clearAction(ac)
    and the loop of clearDependencies(ac). *)
Inductive frame := FInit | FStart (i : nat) | FClear (i : nat) | FLoop (i : nat).

(** What can be observed: an action started, an action completed, finalize() and
    putDoneNotification() called. *)
Inductive devent := EStart (i : nat) | EClear (i : nat) | EDone.

Record dcfg := {
  d_init : list nat;         (* initial_actions_ *)
  d_pend : list (nat * nat); (* pending_comms_ *)
  d_join : nat -> nat;       (* join_counter of every action *)
  d_act : list nat;          (* active_comms_ *)
  d_stk : list frame;
  d_log : list devent        (* newest first *)
}.

Definition dstart (ds : list dep) : dcfg :=
  let b := build ds in
  {| d_init := b_init b; d_pend := b_pend b; d_join := b_join b; d_act := [];
     d_stk := [FInit]; d_log := [] |}.

Definition is_empty {A} (l : list A) : bool := match l with [] => true | _ => false end.

Section Dag.
(** Sends and receives ([true]) as opposed to shuffles and joins. *)
Variable comm : nat -> bool.

Inductive dstep : dcfg -> dcfg -> Prop :=
(** start(), 147-159: take an initial action.  More general than the code, which
    takes the smallest id. *)
| s_init : forall c k i l1 l2, d_stk c = FInit :: k -> d_init c = l1 ++ i :: l2 ->
    dstep c {| d_init := l1 ++ l2; d_pend := d_pend c; d_join := d_join c; d_act := d_act c;
               d_stk := FStart i :: FInit :: k; d_log := d_log c |}
| s_init_end : forall c k, d_stk c = FInit :: k -> d_init c = [] ->
    dstep c {| d_init := []; d_pend := d_pend c; d_join := d_join c; d_act := d_act c;
               d_stk := k; d_log := d_log c |}
(** startAction, 161-212, for a send or receive (startSend 427-433, startRecv
    464-469): it becomes active and waits, ... *)
| s_start_wait : forall c k i, d_stk c = FStart i :: k -> comm i = true ->
    dstep c {| d_init := d_init c; d_pend := d_pend c; d_join := d_join c; d_act := i :: d_act c;
               d_stk := k; d_log := EStart i :: d_log c |}
(** ... or its message is there already (reputPending 519-540): it completes
    within the call. *)
| s_start_ready : forall c k i, d_stk c = FStart i :: k -> comm i = true ->
    dstep c {| d_init := d_init c; d_pend := d_pend c; d_join := d_join c; d_act := i :: d_act c;
               d_stk := FClear i :: k; d_log := EStart i :: d_log c |}
(** A shuffle or join is done at once. *)
| s_start_local : forall c k i, d_stk c = FStart i :: k -> comm i = false ->
    dstep c {| d_init := d_init c; d_pend := d_pend c; d_join := d_join c; d_act := d_act c;
               d_stk := FClear i :: k; d_log := EStart i :: d_log c |}
(** clearAction, 253-260, with checkCollectiveDone, 415-425. *)
| s_clear : forall c k i a, d_stk c = FClear i :: k -> a = remove Nat.eq_dec i (d_act c) ->
    dstep c {| d_init := d_init c; d_pend := d_pend c; d_join := d_join c; d_act := a;
               d_stk := FLoop i :: k;
               d_log := (if is_empty a && is_empty (d_pend c) && is_empty (d_init c)
                         then [EDone] else []) ++ EClear i :: d_log c |}
(** clearDependencies, 222-251: one iteration of the loop. *)
| s_loop : forall c k i j l1 l2, d_stk c = FLoop i :: k -> d_pend c = l1 ++ (i, j) :: l2 ->
    dstep c {| d_init := d_init c; d_pend := l1 ++ l2; d_join := upd (d_join c) j (d_join c j - 1);
               d_act := d_act c;
               d_stk := (if d_join c j - 1 =? 0 then [FStart j] else []) ++ FLoop i :: k;
               d_log := d_log c |}
| s_loop_end : forall c k i, d_stk c = FLoop i :: k -> (forall j, ~ In (i, j) (d_pend c)) ->
    dstep c {| d_init := d_init c; d_pend := d_pend c; d_join := d_join c; d_act := d_act c;
               d_stk := k; d_log := d_log c |}
(** The network completes an active send or receive (dataSent, dataRecved,
    558-636): commActionDone. *)
| s_complete : forall c i, d_stk c = [] -> In i (d_act c) ->
    dstep c {| d_init := d_init c; d_pend := d_pend c; d_join := d_join c; d_act := d_act c;
               d_stk := [FClear i]; d_log := d_log c |}.

(** [dexec ds n c]: [c] is reached from start() by [n] steps. *)
Inductive dexec (ds : list dep) : nat -> dcfg -> Prop :=
| dx0 : dexec ds 0 (dstart ds)
| dxS : forall n c c', dexec ds n c -> dstep c c' -> dexec ds (S n) c'.
End Dag.
