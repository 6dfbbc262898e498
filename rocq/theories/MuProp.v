(* C43 and C52: what the simulated mutex, condition variable and once control guarantee. *)
From Coq Require Import List Bool Arith Lia.
From Verif Require Import ListFacts MuModel.
Import ListNotations.

(* ---------- what fails ---------- *)

(* A successful trylock does not take the mutex: two threads hold it. *)
Theorem trylock_excludes_refuted : exists l m t u,
  run mutex0 l = Some (Ok m) /\ t <> u /\ In t (m_hold m) /\ In u (m_hold m).
Proof.
  exists [TryLock 1; Lock 2]. eexists. exists 1, 2.
  split; [reflexivity|split; [discriminate|split; cbn; auto]].
Qed.
Print Assumptions trylock_excludes_refuted.

(* A signal sent by the holder of the mutex, the usual way, gives the mutex to the signalled
   thread while the signaller still has it. *)
Theorem signal_excludes_refuted : exists l m t u,
  run mutex0 l = Some (Ok m) /\ (forall x, ~ In (TryLock x) l) /\ t <> u /\ In t (m_hold m) /\ In u (m_hold m).
Proof.
  exists [Lock 1; CondWait 0 1; Lock 2; Signal 0 2; Event]. eexists. exists 1, 2.
  split; [reflexivity|split; [|split; [discriminate|split; cbn; auto]]].
  intros x H. cbn in H. intuition discriminate.
Qed.
Print Assumptions signal_excludes_refuted.

(* A signal wakes a thread waiting on another condition variable of the same mutex. *)
Theorem signal_wakes_waiter_refuted : exists l c t u m m1,
  run mutex0 l = Some (Ok m) /\ In t (m_cond m) /\ m_on m t = c /\
  step m (Signal c u) = Some (Ok m1) /\
  exists v, m_evs m1 = [Wk v] /\ m_on m v <> c.
Proof.
  exists [Lock 1; CondWait 7 1; Lock 2; CondWait 8 2], 8, 2, 3. do 2 eexists.
  split; [reflexivity|split; [cbn; auto|split; [reflexivity|split; [reflexivity|]]]].
  exists 1. split; [reflexivity|discriminate].
Qed.
Print Assumptions signal_wakes_waiter_refuted.

(* A signal nobody waits for is not a no-op: it aborts the simulation. *)
Theorem signal_without_waiter_refuted : exists l,
  (forall x, ~ In (TryLock x) l) /\ run mutex0 l = Some Abort.
Proof.
  exists [Lock 1; CondWait 0 1; Signal 0 2; Event; Unlock 1; Signal 0 2]. split; [|reflexivity].
  intros x H. cbn in H. intuition discriminate.
Qed.
Print Assumptions signal_without_waiter_refuted.

(* The read-write locks do not exclude at all. *)
Theorem rwlock_excludes_refuted : exists l t u,
  t <> u /\ In (t, true) (fold_left rw_step l []) /\ In (u, true) (fold_left rw_step l []).
Proof. exists [WrLock 1; WrLock 2], 1, 2. split; [discriminate|cbn; auto]. Qed.
Print Assumptions rwlock_excludes_refuted.

(* ---------- what holds ---------- *)

(* Without trylock, and with signals only sent while the mutex is free *)
Definition disciplined (m : mutex) (o : op) : Prop :=
  match o with TryLock _ => False | Signal _ _ => m_locked m = false | _ => True end.

Inductive reach : mutex -> Prop :=
| reach0 : reach mutex0
| reachS : forall m o m1, reach m -> disciplined m o -> step m o = Some (Ok m1) -> reach m1.

Definition wks (l : list ev) : list thread := flat_map (fun e => match e with Wk t => [t] | Ub => [] end) l.

Definition everyone (m : mutex) : list thread := m_wait m ++ m_cond m ++ wks (m_evs m) ++ m_hold m.

Record minv (m : mutex) : Prop := {
  mi_free : m_locked m = false -> m_hold m = [] /\ m_wait m = [] /\ m_evs m = [];
  mi_taken : m_locked m = true ->
    (exists t, m_hold m = [t] /\ m_evs m = []) \/
    (m_hold m = [] /\ exists e, m_evs m = [e] /\ (e = Ub -> m_wait m <> []));
  mi_nd : NoDup (everyone m);
  mi_fifo : exists x, m_called m = m_got m ++ x ++ m_wait m /\
    (x = [] \/ exists t, x = [t] /\ m_evs m = [Wk t]) }.

Lemma memt_spec : forall t l, memt t l = true <-> In t l.
Proof.
  intros t l. unfold memt. rewrite existsb_exists. split.
  - intros (x & Hx & E). apply Nat.eqb_eq in E. subst. exact Hx.
  - intros H. exists t. split; [exact H|apply Nat.eqb_refl].
Qed.

Lemma wks_spec : forall t l, existsb (is_wk t) l = true <-> In t (wks l).
Proof.
  intros t l. induction l as [|[u|] l IH]; cbn; [split; [discriminate|intros []]| |exact IH].
  rewrite orb_true_iff, IH, Nat.eqb_eq. split; intros [H|H]; auto.
Qed.

Lemma blocked_false : forall m t, blocked m t = false ->
  ~ In t (m_wait m) /\ ~ In t (m_cond m) /\ ~ In t (wks (m_evs m)).
Proof.
  intros m t H. unfold blocked in H. apply orb_false_iff in H as [H H3]. apply orb_false_iff in H as [H1 H2].
  repeat split; intros K.
  - apply memt_spec in K. congruence.
  - apply memt_spec in K. congruence.
  - apply wks_spec in K. congruence.
Qed.

Lemma drop_one : forall t, drop t [t] = [].
Proof. intros t. unfold drop. cbn. destruct (Nat.eq_dec t t); [reflexivity|contradiction]. Qed.

Ltac perm_nd H := eapply Permutation.Permutation_NoDup; [|exact H].

From Coq Require Import Permutation.

Lemma inv_lock : forall m t, minv m -> blocked m t = false -> ~ In t (m_hold m) -> minv (lock m t).
Proof.
  intros m t [F T ND (x & X1 & X2)] B NH. apply blocked_false in B as (B1 & B2 & B3). unfold lock.
  assert (NE : ~ In t (everyone m)) by (unfold everyone; rewrite !in_app_iff; tauto).
  assert (ND' : NoDup (t :: everyone m)) by (constructor; assumption).
  destruct (m_locked m) eqn:E; split; cbn [m_locked m_wait m_cond m_evs m_hold m_called m_got]; try discriminate; intros.
  - destruct (T eq_refl) as [H1|(H1 & e & H2 & H3)]; [left; exact H1|right]. split; [exact H1|].
    exists e. split; [exact H2|]. intros _ K. destruct (m_wait m); discriminate K.
  - perm_nd ND'. unfold everyone. cbn [m_wait m_cond m_evs m_hold]. rewrite <- !app_assoc. cbn. apply Permutation_middle.
  - exists x. split; [|exact X2]. rewrite X1, <- !app_assoc. reflexivity.
  - left. exists t. destruct (F eq_refl) as (-> & _ & ->). auto.
  - perm_nd ND'. unfold everyone. cbn [m_wait m_cond m_evs m_hold]. rewrite !app_assoc. apply Permutation_middle.
  - exists x. destruct (F eq_refl) as (_ & F1 & F2). rewrite F1, app_nil_r in *. destruct X2 as [->|(u & -> & X2)].
    + rewrite app_nil_r in *. split; [rewrite X1; reflexivity|left; reflexivity].
    + rewrite F2 in X2. discriminate.
Qed.

Lemma holder_state : forall m t, minv m -> In t (m_hold m) -> m_locked m = true /\ m_hold m = [t] /\ m_evs m = [].
Proof.
  intros m t [F T _ _] H. destruct (m_locked m).
  - split; [reflexivity|]. destruct (T eq_refl) as [(u & H1 & H2)|(H1 & _)]; rewrite H1 in H.
    + destruct H as [->|[]]. auto.
    + destruct H.
  - destruct (F eq_refl) as (H1 & _). rewrite H1 in H. destruct H.
Qed.

Lemma inv_unlock : forall m t, minv m -> In t (m_hold m) -> minv (unlock m t).
Proof.
  intros m t I H. destruct (holder_state m t I H) as (E & EH & EE). destruct I as [_ _ ND (x & X1 & X2)].
  unfold unlock. rewrite E, EH, drop_one, EE.
  assert (x = []) as -> by (destruct X2 as [->|(u & _ & X2)]; [reflexivity|congruence]). cbn [app] in X1.
  unfold everyone in ND. rewrite EE, EH in ND. cbn [wks flat_map app] in ND.
  destruct (m_wait m) as [|w ws]; split; cbn [m_locked m_wait m_cond m_evs m_hold m_called m_got]; try discriminate; intros; auto.
  - unfold everyone. cbn. rewrite app_nil_r. cbn in ND. apply nodup_app_iff in ND. apply ND.
  - exists []. auto.
  - right. split; [reflexivity|]. exists (Wk w). split; [reflexivity|discriminate].
  - unfold everyone. cbn [m_wait m_cond m_evs m_hold wks flat_map app].
    cbn in ND.
    assert (P : NoDup ((w :: ws ++ m_cond m) ++ [t])) by (cbn; rewrite <- app_assoc; exact ND).
    apply nodup_app_iff in P as [P _]. perm_nd P. rewrite app_assoc. apply Permutation_cons_append.
  - exists [w]. split; [exact X1|]. right. exists w. auto.
Qed.

Lemma inv_wait : forall m c t, minv m -> In t (m_hold m) -> minv (cond_wait m c t).
Proof.
  intros m c t I H. destruct (holder_state m t I H) as (E & EH & EE). destruct I as [_ _ ND (x & X1 & X2)].
  unfold cond_wait. rewrite E, EH, drop_one, EE.
  assert (x = []) as -> by (destruct X2 as [->|(u & _ & X2)]; [reflexivity|congruence]). cbn [app] in X1.
  unfold everyone in ND. rewrite EE, EH in ND. cbn [wks flat_map app] in ND.
  destruct (m_wait m) as [|w ws]; split; cbn [m_locked m_wait m_cond m_evs m_hold m_called m_got]; try discriminate; intros; auto.
  - unfold everyone. cbn. rewrite app_nil_r. exact ND.
  - exists []. auto.
  - right. split; [reflexivity|]. exists Ub. split; [reflexivity|discriminate].
  - unfold everyone. cbn [m_wait m_cond m_evs m_hold wks flat_map app]. rewrite app_nil_r. exact ND.
  - exists []. auto.
Qed.

Lemma inv_signal : forall m c m1, minv m -> m_locked m = false -> signal m c = Ok m1 -> minv m1.
Proof.
  intros m c m1 I E H. unfold signal in H. destruct (existsb _ _); [|inversion H; subst; exact I].
  destruct I as [F _ ND (x & X1 & X2)]. destruct (F E) as (F1 & F2 & F3).
  unfold everyone in ND. rewrite F1, F2, F3 in ND. cbn in ND. rewrite app_nil_r in ND.
  destruct (m_cond m) as [|w r]; [discriminate|]. inversion H; subst m1. rewrite F1, F2, F3 in *.
  assert (x = []) as -> by (destruct X2 as [->|(u & _ & X2)]; [reflexivity|congruence]).
  split; cbn [m_locked m_wait m_cond m_evs m_hold m_called m_got]; try discriminate; intros; auto.
  - right. split; [reflexivity|]. exists (Wk w). split; [reflexivity|discriminate].
  - unfold everyone. cbn. perm_nd ND. apply Permutation_cons_append.
  - exists []. auto.
Qed.

Lemma count_fifo : forall m t x, m_called m = m_got m ++ x ++ m_wait m -> ~ In t (m_wait m) ->
  in_lock m t = (0 <? count_occ Nat.eq_dec x t).
Proof.
  intros m t x E N. unfold in_lock. rewrite E, !count_occ_app.
  pose proof (proj1 (count_occ_not_In Nat.eq_dec (m_wait m) t) N) as C. unfold thread in *.
  apply eq_true_iff_eq. rewrite !Nat.ltb_lt, C. lia.
Qed.

Lemma inv_event : forall m r, minv m -> event m (in_lock m) = Some r ->
  exists m1 t, r = Ok m1 /\ minv m1 /\ m_locked m1 = true /\ m_hold m1 = [t] /\ m_evs m1 = [].
Proof.
  intros m r I H. pose proof I as [F T ND (x & X1 & X2)]. unfold event in H.
  destruct (m_locked m) eqn:E.
  2:{ destruct (F eq_refl) as (_ & _ & F3). rewrite F3 in H. discriminate. }
  destruct (T eq_refl) as [(t & _ & T2)|(T1 & e & T2 & T3)]; rewrite T2 in H; [discriminate|].
  destruct e as [t|].
  - inversion H; subst r. exists (resume m t (in_lock m t) (m_wait m) []), t.
    split; [reflexivity|]. unfold resume.
    cbn [m_locked m_hold m_evs]. rewrite E, T1. split; [|auto].
    unfold everyone in ND. rewrite T2, T1 in ND. cbn [wks flat_map app] in ND.
    assert (NW : ~ In t (m_wait m)).
    { intros K. apply nodup_app_iff in ND as (_ & _ & ND). apply (ND t K). apply in_app_iff. right. left. reflexivity. }
    rewrite (count_fifo m t x X1 NW).
    split; cbn [m_locked m_wait m_cond m_evs m_hold m_called m_got]; try discriminate; intros; auto.
    + left. exists t. auto.
    + exists []. split; [|left; reflexivity]. destruct X2 as [->|(u & -> & X2)].
      * cbn. exact X1.
      * rewrite T2 in X2. inversion X2; subst u. cbn [count_occ]. destruct (Nat.eq_dec t t); [|contradiction].
        cbn. rewrite X1, <- app_assoc. reflexivity.
  - destruct (m_wait m) as [|w ws] eqn:EW; [exfalso; exact (T3 eq_refl eq_refl)|].
    inversion H; subst r. exists (resume m w true ws []), w. split; [reflexivity|]. unfold resume.
    cbn [m_locked m_hold m_evs]. rewrite E, T1. split; [|auto].
    unfold everyone in ND. rewrite T2, T1, EW in ND. cbn [wks flat_map app] in ND.
    split; cbn [m_locked m_wait m_cond m_evs m_hold m_called m_got]; try discriminate; intros; auto.
    + left. exists w. auto.
    + unfold everyone. cbn. perm_nd ND. rewrite app_nil_r, app_assoc. apply Permutation_cons_append.
    + exists []. split; [|left; reflexivity]. destruct X2 as [->|(u & -> & X2)]; [|congruence].
      cbn in X1. rewrite X1. cbn. rewrite <- app_assoc. reflexivity.
Qed.

Lemma reach_inv : forall m, reach m -> minv m.
Proof.
  intros m R. induction R as [|m o m1 R IH D S].
  - split; cbn; try discriminate; auto. constructor. exists []. auto.
  - destruct o as [t|t|t|c t|c t|]; cbn in S, D.
    + destruct (blocked m t) eqn:B; [discriminate|]. cbn in S.
      destruct (memt t (m_hold m)) eqn:M; [discriminate|]. inversion S; subst.
      apply inv_lock; auto. intros K. apply memt_spec in K. congruence.
    + destruct D.
    + destruct (blocked m t) eqn:B; [discriminate|]. cbn in S.
      destruct (memt t (m_hold m)) eqn:M; [|discriminate]. inversion S; subst. apply inv_unlock; auto.
      apply memt_spec; exact M.
    + destruct (blocked m t) eqn:B; [discriminate|]. cbn in S.
      destruct (memt t (m_hold m)) eqn:M; [|discriminate]. inversion S; subst. apply inv_wait; auto.
      apply memt_spec; exact M.
    + destruct (blocked m t) eqn:B; [discriminate|]. inversion S as [S1]. exact (inv_signal m c m1 IH D S1).
    + destruct (inv_event m (Ok m1) IH S) as (m2 & t & E & I & _). inversion E; subst. exact I.
Qed.

(* Missing from the full claim: trylock, and signals sent while a thread has the mutex (both
   refuted above).  Otherwise at most one thread holds the mutex; and when none does, either
   nobody waits for it or a wake-up is on its way. *)
Theorem mutex_excludes_partial : forall m, reach m ->
  length (m_hold m) <= 1 /\ (m_hold m = [] -> m_wait m = [] \/ length (m_evs m) = 1) /\
  (m_hold m <> [] -> m_evs m = []).
Proof.
  intros m R. destruct (reach_inv m R) as [F T _ _]. destruct (m_locked m).
  - destruct (T eq_refl) as [(t & -> & ->)|(-> & e & -> & _)]; cbn; (split; [lia|split; [|]]); auto; try discriminate.
    intros K. congruence.
  - destruct (F eq_refl) as (-> & -> & ->). cbn. split; [lia|split; auto].
Qed.
Print Assumptions mutex_excludes_partial.

(* Same restriction.  Calls of lock return in the order in which they were made. *)
Theorem mutex_fifo_partial : forall m, reach m ->
  exists later, m_called m = m_got m ++ later /\ forall t, In t later -> ~ In t (m_hold m) /\ blocked m t = true.
Proof.
  intros m R. destruct (reach_inv m R) as [F T ND (x & X1 & X2)].
  exists (x ++ m_wait m). split; [exact X1|]. intros t Ht. unfold everyone in ND.
  apply in_app_iff in Ht as [Ht|Ht].
  - destruct X2 as [->|(u & -> & X2)]; [destruct Ht|]. destruct Ht as [->|[]]. split.
    + rewrite X2 in ND. intros K. apply nodup_app_iff in ND as (_ & ND & _). apply nodup_app_iff in ND as (_ & ND & _).
      cbn in ND. inversion ND as [|? ? N1 _]. contradiction.
    + unfold blocked. rewrite X2. cbn. rewrite Nat.eqb_refl, !orb_true_r. reflexivity.
  - split.
    + intros K. apply nodup_app_iff in ND as (_ & _ & ND). apply (ND t Ht). rewrite !in_app_iff. auto.
    + unfold blocked. rewrite (proj2 (memt_spec t (m_wait m)) Ht). reflexivity.
Qed.
Print Assumptions mutex_fifo_partial.

(* Same restriction.  Posted wake-ups never fail, and a thread whose lock or cond_wait returns
   holds the mutex, alone. *)
Theorem mutex_resume_partial : forall m r, reach m -> step m Event = Some r ->
  exists m1 t, r = Ok m1 /\ m_hold m1 = [t] /\ m_locked m1 = true /\ In t (m_wait m ++ wks (m_evs m)).
Proof.
  intros m r R H. pose proof (reach_inv m R) as I. cbn in H.
  destruct (inv_event m r I H) as (m1 & t & -> & _ & L & HO & _). exists m1, t.
  split; [reflexivity|split; [exact HO|split; [exact L|]]].
  unfold event in H. apply in_app_iff. destruct (m_evs m) as [|[u|] es]; [discriminate| |].
  - inversion H; subst m1. unfold resume in HO. cbn in HO. inversion HO. right. left. reflexivity.
  - destruct (m_wait m) as [|w ws]; [discriminate|]. inversion H; subst m1. unfold resume in HO. cbn in HO. inversion HO.
    left. left. reflexivity.
Qed.
Print Assumptions mutex_resume_partial.

(* Three threads; thread 1 waits on a condition while 2 and 3 queue for the mutex, and is
   signalled when it is free. *)
Example mutex_example : exists m, reach m /\ m_hold m = [1] /\ m_called m = [1; 2; 3] /\ m_got m = [1; 2; 3].
Proof.
  pose (good := fun m o => match o with TryLock _ => false | Signal _ _ => negb (m_locked m) | _ => true end).
  pose (go := fix go (m : mutex) (l : list op) : option mutex :=
    match l with
    | [] => Some m
    | o :: r => if good m o then match step m o with Some (Ok m1) => go m1 r | _ => None end else None
    end).
  assert (G : forall l m m1, reach m -> go m l = Some m1 -> reach m1).
  { intros l. induction l as [|o l IH]; intros m m1 R H; cbn in H; [inversion H; subst; exact R|].
    destruct (good m o) eqn:B; [|discriminate]. destruct (step m o) as [[m2|]|] eqn:E; try discriminate.
    apply (IH m2); auto. apply (reachS m o); auto. destruct o; cbn in *; auto; [discriminate|].
    apply negb_true_iff. exact B. }
  eexists. split.
  - apply (G [Lock 1; Lock 2; Lock 3; CondWait 0 1; Event; Unlock 2; Event; Unlock 3; Signal 0 2; Event] mutex0).
    + apply reach0.
    + reflexivity.
  - cbn. auto.
Qed.

(* ---------- pthread_once ---------- *)

(* The routine runs at every call, not once. *)
Theorem once_once_refuted : exists n runs, Nat.iter n once (0, 0) = (0, runs) /\ runs > 1.
Proof. exists 2, 2. split; [reflexivity|lia]. Qed.
Print Assumptions once_once_refuted.

(* Missing: at most once (refuted).  After the first call on a control that was initialised
   the routine has run. *)
Theorem once_runs_partial : forall n, n > 0 -> exists ctl runs, Nat.iter n once (0, 0) = (ctl, runs) /\ runs >= 1.
Proof.
  assert (G : forall n, Nat.iter n once (0, 0) = (0, n)).
  { induction n as [|n IH]; [reflexivity|]. cbn [Nat.iter nat_rect]. change (once (Nat.iter n once (0, 0)) = (0, S n)). rewrite IH. reflexivity. }
  intros n H. exists 0, n. split; [apply G|lia].
Qed.
Print Assumptions once_runs_partial.

Example once_example : Nat.iter 3 once (0, 0) = (0, 3).
Proof. reflexivity. Qed.
