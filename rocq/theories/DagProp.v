(** C24: collective schedules run every action once, after its precursors, and
    report completion once, at the end. *)
From Coq Require Import List Arith Lia Bool.
From Verif Require Import ListFacts DagModel DagProof.
Import ListNotations.

(** * Specification *)

(** [j] is an action of the schedule; [p] is a precursor of [j]. *)
Definition action (ds : list dep) (j : nat) : Prop := exists o, In (o, j) ds.
Definition precursor (ds : list dep) (p j : nat) : Prop := In (Some p, j) ds.

(** Every precursor is an action of the schedule and there is no cycle. *)
Definition well_founded_schedule (ds : list dep) : Prop :=
  (forall p j, precursor ds p j -> action ds p) /\
  exists rank : nat -> nat, forall p j, precursor ds p j -> rank p < rank j.

(** What has happened so far, oldest first. *)
Definition trace (c : dcfg) : list devent := rev (d_log c).

(** [e] is in [l] at exactly the place between [a] and [b]. *)
Definition only_at (e : devent) (a b : list devent) : Prop := ~ In e a /\ ~ In e b.

(** * Lemmas *)

Lemma in_pairs : forall ds p j, In (p, j) (pairs ds) <-> precursor ds p j.
Proof.
  intros ds p j. unfold precursor. induction ds as [|[[q|] m] r IH]; cbn [pairs In]; [tauto| |].
  - rewrite IH. split; (intros [E|E]; [left; congruence|right; exact E]).
  - rewrite IH. split; [intros H; right; exact H|intros [E|E]; [discriminate|exact E]].
Qed.

Lemma in_nodes : forall ds j, In j (nodes ds) <-> action ds j.
Proof.
  intros ds j. unfold nodes, action. rewrite in_map_iff. split.
  - intros ((o & i) & E & H). cbn in E. subst i. exists o. exact H.
  - intros (o & H). exists (o, j). auto.
Qed.

Lemma in_starts : forall l j, In j (starts l) <-> In (EStart j) l.
Proof.
  intros l j. unfold starts. rewrite in_flat_map. split.
  - intros (e & H & He). destruct e as [i|i|]; cbn in He; [destruct He as [->|[]]; exact H|destruct He|destruct He].
  - intros H. exists (EStart j). split; [exact H|left; reflexivity].
Qed.
Lemma in_clears : forall l j, In j (clears l) <-> In (EClear j) l.
Proof.
  intros l j. unfold clears. rewrite in_flat_map. split.
  - intros (e & H & He). destruct e as [i|i|]; cbn in He; [destruct He|destruct He as [->|[]]; exact H|destruct He].
  - intros H. exists (EClear j). split; [exact H|left; reflexivity].
Qed.
Lemma starts_app : forall a b, starts (a ++ b) = starts a ++ starts b.
Proof. intros. apply flat_map_app. Qed.
Lemma clears_app : forall a b, clears (a ++ b) = clears a ++ clears b.
Proof. intros. apply flat_map_app. Qed.
Lemma dones_app : forall a b, dones (a ++ b) = dones a + dones b.
Proof. intros. unfold dones. rewrite filter_app, app_length. reflexivity. Qed.
Lemma dones_in : forall l, In EDone l -> 0 < dones l.
Proof.
  intros l H. unfold dones. destruct (filter _ l) as [|e r] eqn:F; [exfalso|cbn; lia].
  assert (Hin : In EDone []) by (rewrite <- F; apply filter_In; auto). destruct Hin.
Qed.

Lemma trace_split : forall c a e b, trace c = a ++ e :: b -> d_log c = rev b ++ e :: rev a.
Proof.
  intros c a e b H. unfold trace in H. rewrite <- (rev_involutive (d_log c)), H, rev_app_distr.
  cbn [rev]. rewrite <- app_assoc. reflexivity.
Qed.

Lemma nodup_mid : forall (a b : list nat) x, NoDup (a ++ x :: b) -> ~ In x a /\ ~ In x b.
Proof. intros a b x H. apply NoDup_remove_2 in H. rewrite in_app_iff in H. tauto. Qed.

(** * Theorems *)

Section Prop24.
Variable comm : nat -> bool.

(** An action starts at most once; when it starts, each of its precursors has
    completed. *)
Theorem dag_starts_once : forall ds n c a b j, dexec comm ds n c -> trace c = a ++ EStart j :: b ->
  only_at (EStart j) a b /\ action ds j /\ (forall p, precursor ds p j -> In (EClear p) a).
Proof.
  intros ds n c a b j Hx E. pose proof (dexec_inv comm ds n c Hx) as I. apply trace_split in E.
  assert (Hin : In j (starts (d_log c))) by (apply in_starts; rewrite E; apply in_or_app; right; left; reflexivity).
  split; [|split].
  - pose proof (iv_once _ _ _ I) as H. apply nodup_app_iff in H. destruct H as (_ & H & _).
    apply nodup_app_iff in H. destruct H as (_ & H & _). rewrite E, starts_app in H. cbn [starts flat_map app] in H.
    apply nodup_mid in H. unfold only_at. fold (starts (rev a)) in H. rewrite !in_starts, <- !in_rev in H. tauto.
  - apply in_nodes. apply (iv_node _ _ _ I). rewrite !in_app_iff. tauto.
  - intros p Hp. destruct (iv_log _ _ _ I) as (H & _). apply in_pairs in Hp.
    specialize (H _ _ _ E p Hp). rewrite in_clears, <- in_rev in H. exact H.
Qed.

Lemma clear_after_start : forall ds n c, dexec comm ds n c ->
  forall l r i, d_log c = l ++ EClear i :: r -> In (EStart i) r.
Proof.
  intros ds n c H. induction H as [|n c c' H IH Hs]; intros l r i E.
  - destruct l; discriminate.
  - pose proof (dexec_inv comm ds n c H) as I.
    destruct Hs; cbn [d_log] in E; try (exact (IH _ _ _ E));
      try (destruct l as [|x l]; cbn [app] in E; [discriminate|injection E as _ E; exact (IH _ _ _ E)]).
    assert (Hi0 : In (EStart i0) (d_log c)).
    { apply in_starts. apply (iv_clr_st _ _ _ I). rewrite H0. left. reflexivity. }
    destruct (is_empty a && is_empty (d_pend c) && is_empty (d_init c)); cbn [app] in E.
    + destruct l as [|x l]; cbn [app] in E; [discriminate|]. injection E as _ E.
      destruct l as [|x' l]; cbn [app] in E; [injection E as <- <-; exact Hi0|].
      injection E as _ E. exact (IH _ _ _ E).
    + destruct l as [|x' l]; cbn [app] in E; [injection E as <- <-; exact Hi0|].
      injection E as _ E. exact (IH _ _ _ E).
Qed.

(** An action completes at most once, and only after it has started. *)
Theorem dag_completes_once : forall ds n c a b j, dexec comm ds n c -> trace c = a ++ EClear j :: b ->
  only_at (EClear j) a b /\ In (EStart j) a.
Proof.
  intros ds n c a b j Hx E. pose proof (dexec_inv comm ds n c Hx) as I.
  apply trace_split in E. split.
  - pose proof (iv_clr _ _ _ I) as H. apply nodup_app_iff in H. destruct H as (_ & H & _).
    rewrite E, clears_app in H. cbn [clears flat_map app] in H.
    apply nodup_mid in H. unfold only_at. fold (clears (rev a)) in H. rewrite !in_clears, <- !in_rev in H. tauto.
  - apply in_rev. exact (clear_after_start ds n c Hx _ _ _ E).
Qed.

(** The collective is finalized at most once, when every action has completed;
    hence no action starts or completes afterwards. *)
Theorem dag_done_last : forall ds n c a b, dexec comm ds n c -> trace c = a ++ EDone :: b ->
  (forall j, action ds j -> In (EClear j) a) /\ b = [].
Proof.
  intros ds n c a b Hx E. pose proof (dexec_inv comm ds n c Hx) as I. pose proof E as Et. apply trace_split in E.
  assert (Hall : forall j, action ds j -> In (EClear j) a).
  { intros j Hj. destruct (iv_log _ _ _ I) as (_ & H). apply in_nodes in Hj.
    specialize (H _ _ E j Hj). rewrite in_clears, <- in_rev in H. exact H. }
  split; [exact Hall|].
  destruct b as [|e b]; [reflexivity|exfalso].
  destruct e as [j|j|].
  - (* a start: its action has not completed before *)
    assert (Hj : action ds j).
    { apply in_nodes. apply (iv_node _ _ _ I). rewrite !in_app_iff, in_starts. right. right. rewrite E.
      apply in_or_app. left. rewrite <- in_rev. left. reflexivity. }
    specialize (Hall j Hj). apply in_split in Hall. destruct Hall as (a1 & a2 & Ea).
    subst a.
    assert (E1 : trace c = a1 ++ EClear j :: (a2 ++ EDone :: EStart j :: b))
      by (rewrite Et, <- app_assoc; reflexivity).
    destruct (dag_completes_once ds n c _ _ j Hx E1) as (_ & Hs).
    assert (E2 : trace c = (a1 ++ EClear j :: a2 ++ [EDone]) ++ EStart j :: b)
      by (rewrite Et, <- !app_assoc; cbn [app]; rewrite <- app_assoc; reflexivity).
    destruct (dag_starts_once ds n c _ b j Hx E2) as ((Hno & _) & _). apply Hno.
    apply in_or_app. left. exact Hs.
  - (* a second completion *)
    assert (E2 : trace c = (a ++ [EDone]) ++ EClear j :: b) by (rewrite Et, <- app_assoc; reflexivity).
    destruct (dag_completes_once ds n c _ b j Hx E2) as ((Hno & _) & Hst).
    assert (Hj : action ds j).
    { apply in_nodes. apply (iv_node _ _ _ I). rewrite !in_app_iff, in_starts. right. right.
      apply in_rev. change (In (EStart j) (trace c)). rewrite E2. apply in_or_app. left. exact Hst. }
    apply Hno. apply in_or_app. left. exact (Hall j Hj).
  - pose proof (iv_done1 _ _ _ I) as H. rewrite E, dones_app in H. cbn [rev] in H.
    assert (H1 : 0 < dones (rev b ++ [EDone])).
    { apply dones_in. apply in_or_app. right. left. reflexivity. }
    assert (H2 : 0 < dones (EDone :: rev a)) by (apply dones_in; left; reflexivity). lia.
Qed.

(** No step is possible. *)
Definition stuck (c : dcfg) : Prop := forall c', ~ dstep comm c c'.

Lemma stuck_quiet : forall c, stuck c -> d_stk c = [] /\ d_act c = [].
Proof.
  intros c H. destruct (d_stk c) as [|f k] eqn:Hk.
  - split; [reflexivity|]. destruct (d_act c) as [|i l] eqn:Ha; [reflexivity|exfalso].
    eapply H. apply s_complete; [exact Hk|rewrite Ha; left; reflexivity].
  - exfalso. destruct f as [|i|i|i].
    + destruct (d_init c) as [|i l] eqn:Hi.
      * eapply H. eapply s_init_end; [exact Hk|exact Hi].
      * eapply H. eapply (s_init comm c k i [] l); [exact Hk|exact Hi].
    + destruct (comm i) eqn:Hc.
      * eapply H. eapply s_start_wait; [exact Hk|exact Hc].
      * eapply H. eapply s_start_local; [exact Hk|exact Hc].
    + eapply H. eapply s_clear; [exact Hk|reflexivity].
    + destruct (existsb (fun x => fst x =? i) (d_pend c)) eqn:Hb.
      * apply existsb_exists in Hb. destruct Hb as ((p & j) & Hin & Hp). apply Nat.eqb_eq in Hp. cbn in Hp. subst p.
        apply in_split in Hin. destruct Hin as (l1 & l2 & E). eapply H. eapply s_loop; [exact Hk|exact E].
      * eapply H. eapply s_loop_end; [exact Hk|]. intros j Hj.
        assert (Ht : existsb (fun x => fst x =? i) (d_pend c) = true)
          by (apply existsb_exists; exists (i, j); split; [exact Hj|apply Nat.eqb_refl]).
        congruence.
Qed.

Lemma quiet_stuck : forall c, d_stk c = [] -> d_act c = [] -> stuck c.
Proof.
  intros c Hk Ha c' Hs. destruct Hs as [? ? ? ? ? H|? ? H|? ? ? H|? ? ? H|? ? ? H|? ? ? ? H|? ? ? ? ? ? H|? ? ? H|? ? H Hi];
    try congruence. rewrite Ha in Hi. destruct Hi.
Qed.

(** The executor makes only finitely many steps; when it can go no further, i.e.
    once the network has completed every send and receive it was given, every
    action has run and the completion was reported, as the last thing. *)
Theorem dag_runs_to_completion : forall ds, well_founded_schedule ds -> ds <> [] ->
  (forall n c, dexec comm ds n c -> n <= 7 * length ds + 1) /\
  (forall n c, dexec comm ds n c -> stuck c ->
     (forall j, action ds j -> In (EStart j) (trace c) /\ In (EClear j) (trace c)) /\
     exists a, trace c = a ++ [EDone]).
Proof.
  intros ds (Hreg & rank & Hr) Hne. split.
  - intros n c Hx. pose proof (dexec_inv comm ds n c Hx) as I. pose proof (iv_meas _ _ _ I) as H.
    assert (Hl : length (clears (d_log c)) + length (fclears (d_stk c)) <= length (starts (d_log c))).
    { rewrite Nat.add_comm, <- app_length. apply NoDup_incl_length; [exact (iv_clr _ _ _ I)|].
      intros i Hi. exact (iv_clr_st _ _ _ I i Hi). }
    lia.
  - intros n c Hx Hst. pose proof (dexec_inv comm ds n c Hx) as I.
    destruct (stuck_quiet c Hst) as (Hk & Ha).
    assert (Hall : forall m j, rank j < m -> action ds j -> In j (clears (d_log c))).
    { induction m as [|m IH]; intros j Hm Hj; [lia|].
      destruct (iv_cover _ _ _ I j) as [H|(p & H)]; [apply in_nodes; exact Hj| |].
      - rewrite Hk in H. cbn [fstarts flat_map app] in H. apply in_app_iff in H. destruct H as [H|H].
        + assert (Hi : d_init c <> []) by (intros E; rewrite E in H; destruct H).
          apply (iv_fin _ _ _ I) in Hi. rewrite Hk in Hi. destruct Hi.
        + destruct (iv_st _ _ _ I j H) as [E|E].
          * rewrite Hk in E. exact E.
          * rewrite Ha in E. destruct E.
      - destruct (iv_wait _ _ _ I p j H) as (Hp & _). apply in_pairs in Hp.
        assert (Hc : In p (clears (d_log c))).
        { apply IH; [pose proof (Hr p j Hp); lia|exact (Hreg p j Hp)]. }
        pose proof (iv_loop _ _ _ I p j H Hc) as Hf. rewrite Hk in Hf. destruct Hf. }
    split.
    + intros j Hj. unfold trace. rewrite <- !in_rev.
      pose proof (Hall (S (rank j)) j (Nat.lt_succ_diag_r _) Hj) as Hc. split.
      * apply in_starts. apply (iv_clr_st _ _ _ I). apply in_or_app. right. exact Hc.
      * apply in_clears. exact Hc.
    + assert (Hd : In EDone (trace c)).
      { unfold trace. rewrite <- in_rev. apply (iv_done2 _ _ _ I).
        - destruct ds as [|d r]; [contradiction|discriminate].
        - intros j Hj. apply in_nodes in Hj. exact (Hall (S (rank j)) j (Nat.lt_succ_diag_r _) Hj). }
      apply in_split in Hd. destruct Hd as (a & b & E). exists a.
      destruct (dag_done_last ds n c a b Hx E) as (_ & ->). exact E.
Qed.
End Prop24.
Print Assumptions dag_starts_once.
Print Assumptions dag_completes_once.
Print Assumptions dag_done_last.
Print Assumptions dag_runs_to_completion.

(** Without any action the completion is never reported: checkCollectiveDone is
    only called when an action completes. *)
Theorem dag_completion_refuted : exists ds : list dep, well_founded_schedule ds /\
  forall comm n c, dexec comm ds n c -> ~ In EDone (trace c).
Proof.
  exists []. split.
  - split; [intros p j []|]. exists (fun _ => 0). intros p j [].
  - intros comm n c Hx. assert (E : d_log c = []).
    { induction Hx as [|n c c' Hx IH Hs]; [reflexivity|].
      pose proof (dexec_inv comm [] n c Hx) as I.
      assert (Hf : forall j, In j (fstarts (d_stk c)) -> False).
      { intros j Hj. apply (iv_node _ _ _ I j). rewrite !in_app_iff. tauto. }
      assert (Hg : forall j, In j (fclears (d_stk c)) -> False).
      { intros j Hj. assert (H : In j (starts (d_log c)))
          by (apply (iv_clr_st _ _ _ I); apply in_or_app; left; exact Hj).
        rewrite IH in H. destruct H. }
      destruct Hs as [? ? ? ? ? Hk|? ? Hk|? ? i Hk|? ? i Hk|? ? i Hk|? ? i ? Hk|? ? ? ? ? ? Hk|? ? ? Hk|? ? Hk];
        cbn [d_log]; try exact IH; exfalso.
      1,2,3: apply (Hf i); rewrite Hk; left; reflexivity.
      apply (Hg i); rewrite Hk; left; reflexivity. }
    unfold trace. rewrite E. intros [].
Qed.
Print Assumptions dag_completion_refuted.

(** A send and a receive of round 0 followed, once both are done, by a shuffle
    and the next send. *)
Definition ex_ds : list dep := [(None, 0); (None, 1); (Some 0, 2); (Some 1, 2); (Some 2, 3)].
Example ex_ds_wf : well_founded_schedule ex_ds.
Proof.
  split.
  - intros p j H. unfold precursor, action, ex_ds in *. cbn in H.
    repeat (destruct H as [H|H]; [try discriminate; injection H as <- <-; eexists; cbn; tauto|]). destruct H.
  - exists (fun i => i). intros p j H. unfold precursor, ex_ds in H. cbn in H.
    repeat (destruct H as [H|H]; [try discriminate; injection H as <- <-; lia|]). destruct H.
Qed.
Example ex_run : exists n c, dexec (fun i => negb (i =? 2)) ex_ds n c /\ stuck (fun i => negb (i =? 2)) c /\
  trace c = [EStart 1; EStart 0; EClear 1; EClear 0; EStart 2; EClear 2; EStart 3; EClear 3; EDone].
Proof.
  eexists. eexists. split; [|split].
  - eapply dxS. eapply dxS. eapply dxS. eapply dxS. eapply dxS. eapply dxS. eapply dxS. eapply dxS. eapply dxS.
    eapply dxS. eapply dxS. eapply dxS. eapply dxS. eapply dxS. eapply dxS. eapply dxS. eapply dxS. eapply dxS.
    eapply dxS. eapply dxS. eapply dxS. eapply dx0.
    1: { eapply (s_init _ _ [] 1 [] [0]); reflexivity. }
    1: { eapply s_start_wait; reflexivity. }
    1: { eapply (s_init _ _ [] 0 [] []); reflexivity. }
    1: { eapply s_start_wait; reflexivity. }
    1: { eapply s_init_end; reflexivity. }
    1: { eapply (s_complete _ _ 1); [reflexivity|cbn; tauto]. }
    1: { eapply s_clear; reflexivity. }
    1: { eapply (s_loop _ _ [] 1 2 [(2,3)] [(0,2)]); reflexivity. }
    1: { cbn. eapply s_loop_end; [reflexivity|cbn; intros j H; intuition congruence]. }
    1: { eapply (s_complete _ _ 0); [reflexivity|cbn; tauto]. }
    1: { eapply s_clear; reflexivity. }
    1: { eapply (s_loop _ _ [] 0 2 [(2,3)] []); reflexivity. }
    1: { cbn. eapply s_start_local; reflexivity. }
    1: { eapply s_clear; reflexivity. }
    1: { eapply (s_loop _ _ _ 2 3 [] []); reflexivity. }
    1: { cbn. eapply s_start_wait; reflexivity. }
    1: { eapply s_loop_end; [reflexivity|cbn; intros j H; intuition congruence]. }
    1: { eapply s_loop_end; [reflexivity|cbn; intros j H; intuition congruence]. }
    1: { eapply (s_complete _ _ 3); [reflexivity|cbn; tauto]. }
    1: { eapply s_clear; reflexivity. }
    1: { eapply s_loop_end; [reflexivity|cbn; intros j H; intuition congruence]. }
  - apply quiet_stuck; reflexivity.
  - reflexivity.
Qed.
