(** Property theorems of the event engine: C01-C05 and C57. *)
From Coq Require Import List NArith Bool Arith Lia Permutation Sorted.
From Verif Require Import EvModel EvSpec EvProof EvInv EvSync EvSerial EvPar EvStop EvProp0.
Import ListNotations.
Local Open Scope N_scope.

(** C01.  A serial run executes, at every point, the earliest (time, link, sequence number)
    event among those already caused and not yet executed. *)
Theorem C01_serial_order : forall (S P : Type) (M : machine S P) fuel comp0 boot w,
  serial_run M fuel comp0 boot = Some w -> ordered M comp0 boot (history w).
Proof. exact @serial_ordered. Qed.
Print Assumptions C01_serial_order.

(** ... and this determines the whole history: the order of scheduling has no influence. *)
Theorem C01_order_determines_history :
  forall (S P : Type) (M : machine S P) fuel comp0 boot w hist,
  serial_run M fuel comp0 boot = Some w ->
  ordered M comp0 boot hist -> complete M comp0 boot hist -> history w = hist.
Proof. exact @history_unique. Qed.
Print Assumptions C01_order_determines_history.

(** ... in particular inserting the same events in any order gives the same pending set. *)
Theorem C01_insertion_order_irrelevant :
  forall (P : Type) (es es' : list (event P)),
  NoDup (map e_key es) -> Permutation es es' ->
  fold_left (fun q e => qinsert e q) es [] = fold_left (fun q e => qinsert e q) es' [].
Proof. exact @queue_order_irrelevant. Qed.
Print Assumptions C01_insertion_order_irrelevant.

Example C01_example :
  option_map (fun w => map (fun e => (e_time e, e_link e)) (history w))
    (serial_run toy 50 (fun _ => 0) toy_boot)
  = Some [(0, 2); (1, 2); (2, 2); (3, 2); (4, 3); (5, 0); (5, 3); (6, 0); (6, 3); (7, 0); (7, 3); (9, 1);
          (10, 1); (11, 1)].
Proof. vm_compute. reflexivity. Qed.

(** C02.  A run that returns has executed exactly the caused events, each once. *)
Theorem C02_no_loss_no_duplication :
  forall (S P : Type) (M : machine S P) fuel comp0 boot w,
  serial_run M fuel comp0 boot = Some w ->
  NoDup (history w) /\ Permutation (history w) (caused M comp0 boot (history w)).
Proof. exact @serial_once. Qed.
Print Assumptions C02_no_loss_no_duplication.

(** ... with a termination time [t]: exactly those caused events whose key precedes the
    stop event's, so all those due before [t] and none due after; then the stop. *)
Theorem C02_until :
  forall (S P : Type) (M : machine S P) t fuel comp0 boot w,
  serial_run_until M fuel comp0 boot t = Some w ->
  exists hist, history w = hist ++ [stop_event t] /\ w_stopped w = true /\ NoDup hist /\
    ordered M comp0 boot hist /\
    (forall x, In x (caused M comp0 boot hist) -> e_time x < t -> In x hist) /\
    (forall x, In x hist -> In x (caused M comp0 boot hist) /\ e_time x <= t).
Proof. exact @until_once. Qed.
Print Assumptions C02_until.

Example C02_example :
  match serial_run_until toy 50 (fun _ => 0) toy_boot 6 with
  | Some w => w_stopped w = true /\
      map (fun e => (e_time e, e_link e)) (history w)
      = [(0, 2); (1, 2); (2, 2); (3, 2); (4, 3); (5, 0); (5, 3); (6, 0); (6, 3); (6, 4294967295)]
  | None => False
  end.
Proof. vm_compute. auto. Qed.

(** The stop time itself: an event due exactly then may be silently dropped because its key
    equals the stop event's.  The first component's self link has the stop event's link id. *)
Theorem C02_event_at_stop_time_refuted :
  self_link_id 0 = 4294967295 /\
  exists (M : machine N N) w, serial_run_until M 10 (fun _ => 0) [Send (self_link_id 0) 7 1] 7 = Some w /\
    w_lost w = true /\ ~ In (Ev (Key 7 (self_link_id 0) 0) (Some 1)) (history w) /\
    In (Ev (Key 7 (self_link_id 0) 0) (Some 1)) (caused M (fun _ => 0) [Send (self_link_id 0) 7 1] []).
Proof. exact stop_collision. Qed.
Print Assumptions C02_event_at_stop_time_refuted.

(** C03.  Executed events have nondecreasing times; no event is ever scheduled before the
    clock; and the final component states are those obtained by handing every component its
    events at exactly their due times. *)
Theorem C03_time_monotone :
  forall (S P : Type) (M : machine S P) fuel comp0 boot w,
  serial_run M fuel comp0 boot = Some w ->
  StronglySorted (fun a b => e_time a <= e_time b) (history w) /\ w_past w = false /\
  w_lost w = false /\
  w_comp w = fst (replay M comp0 (fst (emit M 0 (fun _ => 0) boot)) (history w)).
Proof. exact @serial_time. Qed.
Print Assumptions C03_time_monotone.

Example C03_example :
  match serial_run toy 50 (fun _ => 0) toy_boot with
  | Some w => w_comp w 0 = 7 /\ w_comp w 1 = 7 /\ w_now w = 11
  | None => False
  end.
Proof. vm_compute. auto. Qed.

(** C04.  In every state reachable by any interleaving of the managers, no pending event of a
    manager and no event in flight towards it lies before its clock, and the two sanity checks
    (event in the past, event dropped) have never fired. *)
Theorem C04_never_into_the_past :
  forall (S P : Type) (M : machine S P) own n L comp0 boot lb sys,
  (forall c, (own c < n)%nat) -> own_links M -> 0 < L ->
  (forall l, own (m_src M l) <> own (m_dst M l) -> L <= m_lat M l) ->
  Forall (fun s => own (m_src M (s_link s)) = own (m_dst M (s_link s))) boot ->
  preach M own n L comp0 boot lb sys ->
  forall w, (w < n)%nat ->
    (forall e, In e (w_queue (sys w)) -> w_now (sys w) <= e_time e) /\
    (forall w' e, (w' < n)%nat -> In e (w_out (sys w')) -> own (m_dst M (e_link e)) = w ->
        w_now (sys w) <= e_time e) /\
    w_past (sys w) = false /\ w_lost (sys w) = false.
Proof. exact @conservative. Qed.
Print Assumptions C04_never_into_the_past.

Example C04_example :
  exists lb sys, preach toy toy_own 2 5 (fun _ => 0) toy_boot lb sys /\ lb = 5 /\ w_now (sys 1%nat) = 4.
Proof. exact toy_reach. Qed.

(** Without the latency bound the conclusion fails: the lookahead hypothesis is needed. *)
Example C04_lookahead_needed :
  match par_run toy toy_own 60 2 50 (fun _ => 0) toy_boot with
  | Some sys => w_past (sys 1%nat) = true
  | None => False
  end.
Proof. vm_compute. reflexivity. Qed.

(** C05.  A parallel run ends iff the serial run ends, and then every component has gone
    through the same events in the same order and is in the same state. *)
Theorem C05_parallel_equals_serial :
  forall (S P : Type) (M : machine S P) own n L comp0 boot,
  (forall c, (own c < n)%nat) -> own_links M -> 0 < L ->
  (forall l, own (m_src M l) <> own (m_dst M l) -> L <= m_lat M l) ->
  Forall (fun s => own (m_src M (s_link s)) = own (m_dst M (s_link s))) boot ->
  ((exists f w, serial_run M f comp0 boot = Some w) <->
   (exists f sys, par_run M own f n L comp0 boot = Some sys)) /\
  (forall f w f' sys, serial_run M f comp0 boot = Some w ->
    par_run M own f' n L comp0 boot = Some sys ->
    forall c, w_comp w c = w_comp (sys (own c)) c /\
      seen_by M c (history w) = seen_by M c (history (sys (own c)))).
Proof. exact @par_serial. Qed.
Print Assumptions C05_parallel_equals_serial.

Example C05_example :
  match serial_run toy 50 (fun _ => 0) toy_boot, par_run toy toy_own 50 2 5 (fun _ => 0) toy_boot with
  | Some w, Some sys => length (seen_by toy 1 (history w)) = 7%nat /\
       length (seen_by toy 1 (history (sys 1%nat))) = 7%nat
  | _, _ => False
  end.
Proof. vm_compute. auto. Qed.

(** C57.  An event sent to another rank during setup is not accounted for in the first vote:
    the parallel run may end without executing it although the serial run does. *)
Theorem C57_setup_send_lost_refuted :
  exists (M : machine N N) own boot w sys,
    own_links M /\ (forall c, (own c < 2)%nat) /\
    (forall l, own (m_src M l) <> own (m_dst M l) -> 5 <= m_lat M l) /\
    serial_run M 50 (fun _ => 0) boot = Some w /\
    par_run M own 50 2 5 (fun _ => 0) boot = Some sys /\
    length (seen_by M 1 (history w)) = 1%nat /\ seen_by M 1 (history (sys (own 1))) = [].
Proof. exact setup_lost. Qed.
Print Assumptions C57_setup_send_lost_refuted.
