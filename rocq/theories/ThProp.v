(** What programs with threads may rely on. *)
From Coq Require Import List Arith Bool Lia.
From Verif Require Import ThModel ThSpec ThProof ThStep.
From Verif Require ThAff.
Import ListNotations.

(** * C155: the life of a thread *)

(** No call of a legal program and no event uses or deletes a thread or
    process that has been deleted, or ends in an exception. *)
Theorem thread_life_partial : forall w l o,
  reach w -> legal w l -> step w l o -> exists w', o = Good w' /\ reach w'.
Proof.
  intros w l o R LG ST. destruct (step_inv w l o (reach_inv w R) LG ST) as (w' & E & _).
  exists w'. split; auto. subst o. eapply reach_step; eauto.
Qed.
Print Assumptions thread_life_partial.

(** Only threads that have ended are deleted, and only when nobody waits for
    them. *)
Theorem deleted_only_ended : forall w t, reach w -> freed w t = true ->
  t < n w /\ md (th w t) = Ended /\ nobody_joins w t.
Proof.
  intros w t R F. pose proof (reach_inv w R) as I. destruct (i_freed w I t F) as (L & E & S & _).
  repeat split; auto; intro X.
  - destruct (i_join w I _ t H X) as (S' & _). contradiction.
  - destruct (i_ready w I _ t H X) as (S' & _). contradiction.
Qed.
Print Assumptions deleted_only_ended.

(** pthread_join returns to the caller only when the thread has ended; the
    thread is deleted then, and no earlier. *)
Theorem join_returns_at_end : forall w l w' t u,
  reach w -> legal w l -> step w l (Good w') -> t < n w ->
  (md (th w t) = Joining u \/ md (th w t) = JoinReady u \/ l = Call t (OJoin u)) ->
  act w' = Some t ->
  md (th w u) = Ended /\ freed w u = false /\ freed w' u = true /\ ~ In u (subs w').
Proof.
  intros w l w' t u R LG ST L C RUN. pose proof (reach_inv w R) as I.
  inversion ST as [w0 me op A EW EL EO|w0 e r A Q EW EL EO|w0 j A Lj IO EW EL EO]; subst; clear ST.
  - destruct (i_act w I me A) as (Lm & Rm).
    assert (t = me) by (destruct (op_act me op w w' (eq_sym EO)); congruence). subst t.
    destruct C as [C|[C|C]]; try congruence. injection C as ->.
    destruct LG as (S & U & D & NJ). cbn [run_op] in EO.
    assert (F0 : freed w 0 = false) by (apply (main_alive_sub w u); auto).
    unfold join, get_sub, use in EO. rewrite F0 in EO. simpl in EO.
    rewrite (proj2 (mem_in u (subs w)) S) in EO. simpl in EO.
    rewrite (sub_not_freed w u I S) in EO. simpl in EO.
    pose proof (i_subs w I u S).
    destruct (is_done (st (th w u))) eqn:DN.
    + unfold joined, del in EO. rewrite (sub_not_freed w u I S) in EO. simpl in EO.
      unfold remove_sub, use in EO. simpl freed in EO. rewrite put_ne in EO by lia.
      rewrite F0 in EO. simpl in EO. injection EO as <-.
      repeat split.
      * apply (i_done w I); [lia|]. destruct (st (th w u)); auto; discriminate.
      * apply sub_not_freed; auto.
      * simpl. apply put_eq.
      * simpl. rewrite in_rm. tauto.
    + injection EO as <-. discriminate.
  - pose proof (qhd w e r Q) as IN. destruct e as [v|v|v]; cbn [run_ev] in EO.
    + destruct (i_start w I v IN) as (Lv & FR). unfold use in EO. simpl freed in EO.
      rewrite (not_freed w v I) in EO by congruence. cbn [bind] in EO. simpl freed in EO.
      rewrite (main_alive w v I Lv) in EO by congruence. injection EO as <-.
      injection RUN as ->. destruct C as [C|[C|C]]; congruence.
    + destruct (i_switch w I v IN) as (Lv & E); unfold use in EO; simpl freed in EO.
      rewrite (not_freed w v I) in EO by (destruct E as [E|(? & E)]; congruence).
      cbn [bind] in EO; simpl th in EO. destruct E as [E|(u' & E)]; rewrite E in EO.
      * injection EO as <-. injection RUN as ->. destruct C as [C|[C|C]]; congruence.
      * destruct (i_ready w I v u' Lv E) as (S & EN). pose proof (i_subs w I u' S).
        unfold joined, del in EO. simpl freed in EO. rewrite (sub_not_freed w u' I S) in EO.
        cbn [bind] in EO. unfold remove_sub, use in EO. simpl freed in EO. rewrite put_ne in EO by lia.
        rewrite (main_alive w v I Lv) in EO by congruence. cbn [bind] in EO.
        injection EO as <-. injection RUN as ->.
        assert (u = u') by (destruct C as [C|[C|C]]; congruence). subst u'.
        repeat split; auto; [apply sub_not_freed; auto|apply put_eq|].
        simpl. rewrite in_rm. tauto.
    + unfold del in EO. simpl freed in EO. destruct (freed w v); [discriminate|].
      injection EO as <-. simpl in RUN. congruence.
  - unfold wake, use in EO. rewrite (not_freed w j I) in EO by congruence. cbn [bind] in EO.
    destruct (is_canceled (st (th w j))).
    + unfold del in EO. rewrite (not_freed w j I) in EO by congruence. injection EO as <-.
      simpl in RUN. congruence.
    + injection EO as <-. injection RUN as ->. destruct C as [C|[C|C]]; congruence.
Qed.
Print Assumptions join_returns_at_end.

(** When nothing can go on any more, every thread that has not ended waits for
    something outside, or for a thread that has not ended. *)
Theorem no_joiner_forgotten : forall w t, reach w -> act w = None -> q w = [] -> t < n w ->
  md (th w t) = Ended \/ md (th w t) = Io \/
  exists u, md (th w t) = Joining u /\ u < n w /\ md (th w u) <> Ended.
Proof.
  intros w t R A Q L. pose proof (reach_inv w R) as I.
  destruct (md (th w t)) eqn:E; auto.
  - pose proof (i_fresh w I t L E) as H. rewrite Q in H. destruct H.
  - pose proof (i_run w I t L E). congruence.
  - pose proof (i_rdy w I t L E) as H. rewrite Q in H. destruct H.
  - right. right. exists u. destruct (i_join w I t u L E) as (S & N & _).
    pose proof (i_subs w I u S). repeat split; auto; lia.
  - pose proof (i_jrdy w I t u L E) as H. rewrite Q in H. destruct H.
  - destruct (i_lost w I t L E).
Qed.
Print Assumptions no_joiner_forgotten.

(** When the main function has returned and the events are done, every thread
    has ended and has been deleted. *)
Theorem no_thread_left : forall w t, reach w -> md (th w 0) = Ended -> q w = [] -> t < n w ->
  md (th w t) = Ended /\ freed w t = true.
Proof.
  intros w t R M Q L. pose proof (reach_inv w R) as I. pose proof (i_main w I M) as S.
  assert (E : md (th w t) = Ended).
  { destruct t as [|t]; auto.
    destruct (md (th w (Datatypes.S t))) eqn:E; auto; exfalso;
      pose proof (i_all w I (Datatypes.S t) ltac:(lia) L ltac:(congruence)) as H; rewrite S in H; destruct H. }
  split; auto. destruct (i_leak w I t L E) as [F|[F|F]]; auto.
  - rewrite S in F. destruct F.
  - rewrite Q in F. destruct F.
Qed.
Print Assumptions no_thread_left.

(** Running a program. *)
Definition is_io (m : mode) : bool := match m with Io => true | _ => false end.
Fixpoint exec (w : world) (ls : list label) : option out :=
  match ls with
  | [] => Some (Good w)
  | l :: r =>
      let o := match l, act w, q w with
               | Call me o, Some a, _ => if a =? me then Some (run_op me o w) else None
               | Next, None, e :: _ => Some (run_ev e (pop w))
               | Wake j, None, _ => if (j <? n w) && is_io (md (th w j)) then Some (wake j w) else None
               | _, _, _ => None
               end in
      match o with
      | Some (Good w') => exec w' r
      | Some b => match r with [] => Some b | _ => None end
      | None => None
      end
  end.

Lemma exec_gets : forall ls w o, exec w ls = Some o -> gets w ls o.
Proof.
  induction ls as [|l r IH]; intros w o H.
  - injection H as <-. constructor.
  - cbn [exec] in H.
    match type of H with match ?x with _ => _ end = _ => destruct x as [o1|] eqn:E; [|discriminate] end.
    assert (ST : step w l o1).
    { destruct l as [me p| |j]; destruct (act w) as [a|] eqn:A; try discriminate.
      - destruct (Nat.eqb_spec a me); [|discriminate]. subst a. injection E as <-. constructor; auto.
      - destruct (q w) as [|e t] eqn:Q; [discriminate|]. injection E as <-. econstructor; eauto.
      - destruct (j <? n w) eqn:L; [|discriminate]. apply Nat.ltb_lt in L.
        destruct (md (th w j)) eqn:M; try discriminate. injection E as <-. constructor; auto. }
    destruct o1 as [w1| |].
    + eapply gets_cons; eauto.
    + destruct r; [|discriminate]. injection H as <-. apply gets_fail; auto. discriminate.
    + destruct r; [|discriminate]. injection H as <-. apply gets_fail; auto. discriminate.
Qed.

Lemma exec_good : forall ls (P : world -> Prop),
  match exec start ls with Some (Good w) => P w | _ => False end ->
  exists w, gets start ls (Good w) /\ P w.
Proof.
  intros ls P H. destruct (exec start ls) as [[w| |]|] eqn:E; try contradiction.
  exists w. split; auto. apply exec_gets. auto.
Qed.

Lemma exec_bad : forall ls, match exec start ls with Some Bad => True | _ => False end ->
  gets start ls Bad.
Proof.
  intros ls H. destruct (exec start ls) as [[w| |]|] eqn:E; try contradiction.
  apply exec_gets. auto.
Qed.

(** A thread that leaves with pthread_exit is never joined: the caller of
    pthread_join waits for ever. *)
Theorem exit_join_refuted : exists ls w t u,
  gets start ls (Good w) /\ act w = None /\ q w = [] /\
  md (th w t) = Joining u /\ md (th w u) = Lost.
Proof.
  exists [Call 0 (OCreate false); Call 0 (OJoin 1); Next; Call 1 OExit].
  destruct (exec_good [Call 0 (OCreate false); Call 0 (OJoin 1); Next; Call 1 OExit]
    (fun w => act w = None /\ q w = [] /\ md (th w 0) = Joining 1 /\ md (th w 1) = Lost)) as (w & G & P).
  { vm_compute. repeat split; reflexivity. }
  exists w, 0, 1. tauto.
Qed.
Print Assumptions exit_join_refuted.

(** A thread that has been created but not started when the main function
    returns is canceled, but starts, and goes on when the process has been
    deleted. *)
Theorem canceled_starts_refuted : exists ls w,
  gets start (Call 0 (OCreate false) :: Call 0 OReturn :: ls) (Good w) /\
  md (th w 0) = Ended /\ freed w 0 = true /\ act w = Some 1 /\ freed w 1 = false.
Proof.
  exists [Next; Call 1 OIo; Next; Wake 1].
  apply (exec_good [Call 0 (OCreate false); Call 0 OReturn; Next; Call 1 OIo; Next; Wake 1]
    (fun w => md (th w 0) = Ended /\ freed w 0 = true /\ act w = Some 1 /\ freed w 1 = false)).
  vm_compute. repeat split; reflexivity.
Qed.
Print Assumptions canceled_starts_refuted.

(** A call of such a thread uses the deleted process. *)
Theorem deleted_process_used_refuted : exists ls,
  gets start (Call 0 (OCreate false) :: Call 0 OReturn :: ls) Bad.
Proof.
  exists [Next; Call 1 OIo; Next; Wake 1; Call 1 (OCreate false)].
  apply exec_bad. vm_compute. exact I.
Qed.
Print Assumptions deleted_process_used_refuted.

(** A thread that is detached after it has ended is never deleted. *)
Theorem late_detach_refuted : exists ls w,
  gets start ls (Good w) /\ ~ In (Call 0 OExit) ls /\ ~ In (Call 1 OExit) ls /\ In (Call 0 (ODetach 1)) ls /\
  act w = None /\ q w = [] /\ n w = 2 /\ md (th w 0) = Ended /\ md (th w 1) = Ended /\
  freed w 0 = true /\ freed w 1 = false.
Proof.
  exists [Call 0 (OCreate false); Call 0 OIo; Next; Call 1 OReturn; Wake 0; Call 0 (ODetach 1);
          Call 0 OReturn; Next].
  match goal with |- exists w, gets start ?ls _ /\ _ =>
    destruct (exec_good ls
      (fun w => act w = None /\ q w = [] /\ n w = 2 /\ md (th w 0) = Ended /\ md (th w 1) = Ended /\
                freed w 0 = true /\ freed w 1 = false)) as (w & G & P);
    [vm_compute; repeat split; reflexivity|] end.
  exists w. split; [exact G|]. clear G. split; [|split; [|split]].
  - simpl. intros H. repeat (destruct H as [H|H]; [discriminate|]). auto.
  - simpl. intros H. repeat (destruct H as [H|H]; [discriminate|]). auto.
  - simpl. auto 10.
  - exact P.
Qed.
Print Assumptions late_detach_refuted.

(** A joining thread waits until the other one ends; afterwards that one is
    gone, and the main function may return. *)
Example join_example : exists w w', reach w /\
  act w = Some 1 /\ md (th w 0) = Joining 1 /\ reach w' /\ act w' = Some 0 /\ freed w' 1 = true /\
  subs w' = [].
Proof.
  assert (A : exists w, reach w /\ n w = 2 /\ act w = Some 0 /\ q w = [EStart 1] /\ subs w = [1] /\
    th w 1 = T Fresh SPending false [] /\ th w 0 = T Running SActive true [] /\
    freed w 0 = false /\ freed w 1 = false).
  { destruct (thread_life_partial start (Call 0 (OCreate false)) _ reach_start I
      (step_call start 0 (OCreate false) eq_refl)) as (w2 & E & R2).
    exists w2. split; auto. cbn [run_op] in E. unfold create, use in E. simpl in E.
    injection E as <-. repeat split; reflexivity. }
  destruct A as (w1 & R1 & N1 & A1 & Q1 & S1 & T1 & T0 & F0 & F1).
  assert (B : exists w, reach w /\ n w = 2 /\ act w = None /\ q w = [EStart 1] /\ subs w = [1] /\
    th w 1 = T Fresh SPending false [0] /\ th w 0 = T (Joining 1) SActive true [] /\
    freed w 0 = false /\ freed w 1 = false).
  { destruct (thread_life_partial w1 (Call 0 (OJoin 1)) (run_op 0 (OJoin 1) w1) R1) as (w2 & E & R2).
    - simpl. rewrite S1, T1. repeat split; simpl; auto; intro X;
        assert (t = 0 \/ t = 1) as [-> | ->] by lia; rewrite ?T0, ?T1 in X; discriminate.
    - apply step_call. auto.
    - exists w2. split; auto. cbn [run_op] in E. unfold join, get_sub, use in E.
      rewrite F0 in E. simpl in E. rewrite S1 in E. simpl in E. rewrite F1 in E. simpl in E.
      rewrite T1 in E. simpl in E. injection E as <-. simpl.
      unfold put; simpl. rewrite ?T0, ?T1. repeat split; auto. }
  clear w1 R1 N1 A1 Q1 S1 T1 T0 F0 F1.
  destruct B as (w1 & R1 & N1 & A1 & Q1 & S1 & T1 & T0 & F0 & F1).
  assert (C : exists w, reach w /\ n w = 2 /\ act w = Some 1 /\ q w = [] /\ subs w = [1] /\
    th w 1 = T Running SActive false [0] /\ th w 0 = T (Joining 1) SActive true [] /\
    freed w 0 = false /\ freed w 1 = false).
  { destruct (thread_life_partial w1 Next _ R1 I (step_next w1 _ _ A1 Q1)) as (w2 & E & R2).
    exists w2. split; auto. cbn [run_ev] in E. unfold use in E. simpl freed in E.
    rewrite F1 in E. cbn [bind] in E. simpl freed in E. rewrite F0 in E. cbn [bind] in E.
    injection E as <-. simpl. unfold put; simpl. rewrite ?T0, ?T1, ?Q1. repeat split; auto. }
  clear w1 R1 N1 A1 Q1 S1 T1 T0 F0 F1.
  destruct C as (w1 & R1 & N1 & A1 & Q1 & S1 & T1 & T0 & F0 & F1).
  exists w1.
  assert (D : exists w, reach w /\ n w = 2 /\ act w = None /\ q w = [ESwitch 0] /\ subs w = [1] /\
    th w 1 = T Ended SDone false [] /\ th w 0 = T (JoinReady 1) SActive true [] /\
    freed w 0 = false /\ freed w 1 = false).
  { destruct (thread_life_partial w1 (Call 1 OReturn) (run_op 1 OReturn w1) R1) as (w2 & E & R2).
    - simpl. discriminate.
    - apply step_call. auto.
    - exists w2. split; auto. cbn [run_op] in E. unfold finish, cleanup_thread in E. rewrite T1 in E.
      simpl in E. unfold complete in E. rewrite T1 in E. simpl in E. unfold unblock, use in E.
      simpl freed in E. rewrite F0 in E. simpl in E. unfold put in E; simpl in E. rewrite T0 in E. simpl in E.
      injection E as <-. simpl. unfold put; simpl. rewrite ?T0, ?T1, ?Q1. repeat split; auto. }
  destruct D as (w2 & R2 & N2 & A2 & Q2 & S2 & T12 & T02 & F02 & F12).
  destruct (thread_life_partial w2 Next _ R2 I (step_next w2 _ _ A2 Q2)) as (w3 & E & R3).
  exists w3. rewrite T0. repeat split; auto; cbn [run_ev] in E; unfold use in E; simpl freed in E;
    rewrite F02 in E; cbn [bind] in E; simpl th in E; rewrite T02 in E; simpl in E;
    unfold joined, del in E; simpl freed in E; rewrite F12 in E; simpl in E;
    unfold remove_sub, use in E; simpl freed in E; unfold put in E; simpl in E; rewrite F02 in E;
    simpl in E; injection E as <-; simpl; auto.
  rewrite S2. reflexivity.
Qed.

(** * C156: processors of a thread *)

Import ThAff.

Lemma runs_inv : forall l s,
  (forall k t, running s k = Some t -> t < cnt s /\ task s t = k) ->
  forall k t, running (runs l s) k = Some t -> t < cnt (runs l s) /\ task (runs l s) t = k.
Proof.
  induction l as [|a l IH]; intros s H; [exact H|]. change (runs (a :: l) s) with (runs l (run a s)).
  apply IH. intros k t. destruct a as [k'|t'|t'|t' m]; simpl.
  - unfold upd. destruct (Nat.eqb_spec k k').
    + intros E. injection E as <-. rewrite Nat.eqb_refl. split; auto.
    + intros E. destruct (H k t E). destruct (Nat.eqb_spec t (cnt s)); [lia|]. split; auto.
  - unfold upd. destruct (Nat.eqb_spec k (task s t')); [discriminate|auto].
  - auto.
  - destruct (get_thread t' s); simpl; auto.
Qed.

(** A thread is found by the number of its task: only when that is also its
    own number is it the thread that was asked for. *)
Theorem affinity_partial : forall l t u,
  get_thread t (runs l boot) = Some u -> u < cnt (runs l boot) /\ task (runs l boot) u = t.
Proof.
  intros l t u H. apply (runs_inv l boot) in H; auto. discriminate.
Qed.
Print Assumptions affinity_partial.

(** The mask of other threads is kept. *)
Theorem affinity_one : forall l t m v,
  let s := runs l boot in
  mask (run (SetAff t m) s) v <> mask s v -> get_thread t s = Some v /\ task s v = t.
Proof.
  intros l t m v s H. unfold run in H. destruct (get_thread t s) as [u|] eqn:G.
  - simpl in H. unfold upd in H. destruct (Nat.eqb_spec v u); [|congruence]. subst.
    split; auto. apply (affinity_partial l t u G).
  - congruence.
Qed.
Print Assumptions affinity_one.

(** In one process with rank 3, a thread that was created and is running is
    not found. *)
Theorem affinity_unknown_refuted : exists l t,
  let s := runs l boot in
  t < cnt s /\ gone s t = false /\ found t s = false /\
  forall t', ~ In (Join t') l /\ ~ In (Delete t') l.
Proof.
  exists [Start 3; Start 3], 1. simpl. repeat split; auto; intros H;
    repeat (destruct H as [H|H]; [discriminate|]); auto.
Qed.
Print Assumptions affinity_unknown_refuted.

(** The mask of another thread is changed. *)
Theorem affinity_other_refuted : exists l t u m,
  let s := runs l boot in
  t < cnt s /\ gone s t = false /\ u <> t /\ gone s u = false /\
  mask (run (SetAff t m) s) t = mask s t /\ mask s t <> m /\ mask (run (SetAff t m) s) u = m.
Proof. exists [Start 0; Start 0], 0, 1, 5. simpl. repeat split; auto; discriminate. Qed.
Print Assumptions affinity_other_refuted.

(** A thread that has been deleted is found. *)
Theorem affinity_deleted_refuted : exists l t u,
  let s := runs l boot in
  t < cnt s /\ gone s t = false /\ get_thread t s = Some u /\ gone s u = true.
Proof. exists [Start 0; Start 0; Delete 1], 0, 1. simpl. repeat split; auto. Qed.
Print Assumptions affinity_deleted_refuted.

Example affinity_example :
  let s := runs [Start 0; Start 1] boot in
  mask (run (SetAff 1 5) s) 1 = 5 /\ mask (run (SetAff 1 5) s) 0 = mask s 0.
Proof. simpl. auto. Qed.
