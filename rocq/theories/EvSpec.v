(** Vocabulary of the event-core properties, independent of how the queue works. *)
From Coq Require Import List NArith Bool Arith.
From Verif Require Import EvModel.
Import ListNotations.
Local Open Scope N_scope.

(** Earlier: lexicographic on (time, link, sequence number). *)
Definition earlier (a b : key) : Prop :=
  k_time a < k_time b \/
  (k_time a = k_time b /\
    (k_link a < k_link b \/ (k_link a = k_link b /\ k_seq a < k_seq b))).

Section Spec.
Context {S P : Type}.
Variable M : machine S P.

(** Handlers only use links that belong to their own component. *)
Definition own_links : Prop :=
  forall c s t l p s' ss,
    m_handler M c s t l p = (s', ss) -> Forall (fun x => m_src M (s_link x) = c) ss.

(** What a list of sends done at time [now] produces: one event per send, numbered per
    link; returns the new counters and the events. *)
Fixpoint emit (now : N) (seq : N -> N) (ss : list (send P)) : (N -> N) * list (event P) :=
  match ss with
  | [] => (seq, [])
  | s :: r =>
      let l := s_link s in
      let e := Ev (Key (now + s_delay s + m_lat M l) l (seq l)) (Some (s_pay s)) in
      let '(seq', es) := emit now (fun x => if x =? l then seq l + 1 else seq x) r in
      (seq', e :: es)
  end.

(** Replay a history (oldest first) without any queue: the states the components go
    through and all events the history gives rise to. *)
Fixpoint replay (comp : N -> S) (seq : N -> N) (hist : list (event P))
  : (N -> S) * list (event P) :=
  match hist with
  | [] => (comp, [])
  | e :: r =>
      match e_body e with
      | None => replay comp seq r
      | Some p =>
          let c := m_dst M (e_link e) in
          let '(s', ss) := m_handler M c (comp c) (e_time e) (e_link e) p in
          let '(seq', es) := emit (e_time e) seq ss in
          let '(comp', es') := replay (fun x => if x =? c then s' else comp x) seq' r in
          (comp', es ++ es')
      end
  end.

(** All events a simulation gives rise to: those of setup and those produced by the
    executed events. *)
Definition caused (comp0 : N -> S) (boot : list (send P)) (hist : list (event P))
  : list (event P) :=
  let '(seq, es) := emit 0 (fun _ => 0) boot in
  es ++ snd (replay comp0 seq hist).

(** A history obeys the event order: each next event has been caused by what precedes it
    (or by setup), has not been executed yet, and no other caused and unexecuted event is
    earlier. *)
Definition ordered (comp0 : N -> S) (boot : list (send P)) (hist : list (event P)) : Prop :=
  forall h1 e h2, hist = h1 ++ e :: h2 ->
    In e (caused comp0 boot h1) /\ ~ In e h1 /\
    forall x, In x (caused comp0 boot h1) -> In x h1 \/ x = e \/ earlier (e_key e) (e_key x).

(** ... and is complete: everything caused has been executed, exactly once. *)
Definition complete (comp0 : N -> S) (boot : list (send P)) (hist : list (event P)) : Prop :=
  NoDup hist /\ forall x, In x (caused comp0 boot hist) <-> In x hist.

(** The executed events seen by component [c], oldest first. *)
Definition seen_by (c : N) (hist : list (event P)) : list (event P) :=
  filter (fun e => m_dst M (e_link e) =? c) hist.

(** Executed events of a manager, oldest first. *)
Definition history (w : wstate S P) : list (event P) := rev (w_log w).

(** Every interleaving of the managers between two synchronisations.  [preach n L comp0
    boot lb sys]: state [sys] with lower bound [lb] is reachable. *)
Variable own : N -> nat.

Definition sysupd (sys : nat -> wstate S P) (w : nat) (s : wstate S P) : nat -> wstate S P :=
  fun x => if Nat.eqb x w then s else sys x.

Definition forget_ipc (s : wstate S P) : wstate S P :=
  W (w_now s) (w_queue s) None (w_stopped s) (w_comp s) (w_seq s) (w_out s) (w_log s)
    (w_past s) (w_lost s).

Inductive preach (n : nat) (L : N) (comp0 : N -> S) (boot : list (send P))
  : N -> (nat -> wstate S P) -> Prop :=
| preach_init :
    preach n L comp0 boot 0 (fun w => forget_ipc (boot_w M own comp0 boot w))
| preach_step lb sys w s' :
    preach n L comp0 boot lb sys -> (w < n)%nat ->
    wstep M own (Some (lb + L)) (sys w) = Some s' ->
    preach n L comp0 boot lb (sysupd sys w s')
| preach_sync lb sys lb' :
    preach n L comp0 boot lb sys ->
    (forall w, (w < n)%nat -> wstep M own (Some (lb + L)) (sys w) = None) ->
    omin_list (map (fun w => vote (sys w)) (seq 0 n)) = Some lb' ->
    preach n L comp0 boot lb' (fun w => forget_ipc (deliver M own n sys w)).

End Spec.
