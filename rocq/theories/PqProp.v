(** Theorems about blocking, waking and completion queues. *)
From Coq Require Import List Arith Bool Lia.
From Verif Require Import PqModel PqSpec PqProof.
Import ListNotations.

Lemma cut_in : forall (l : list ev) e, In e l -> exists k u v, l = u ++ e :: v /\ cut k l = Some (e, u ++ v).
Proof.
  induction l as [|x l IH]; intros e H; [contradiction|]. destruct H as [->|H].
  - exists 0, [], l. auto.
  - destruct (IH e H) as (k & u & v & -> & C). exists (S k), (x :: u), v. split; auto. simpl. rewrite C. auto.
Qed.
Lemma fire_in : forall n J s e, inv n J s -> p_act s = None -> In e (p_ev s) ->
  exists k u v, p_ev s = u ++ e :: v /\ step n (Fire k) s = Some (fire n e (set_ev (u ++ v) s)).
Proof.
  intros n J s e I A H. destruct (cut_in _ _ H) as (k & u & v & E & C). exists k, u, v. split; auto.
  unfold step. rewrite A, C. auto.
Qed.
Lemma cause_in : forall t l w r, causes t l = w :: r -> In (Wake t w) l.
Proof.
  intros t l w r H. assert (X : In w (causes t l)) by (rewrite H; simpl; auto). unfold causes in X.
  apply in_flat_map in X as (e & He & Hw). destruct e as [t' w'|]; [|contradiction].
  destruct (Nat.eqb_spec t' t); [|contradiction]. destruct Hw as [->|[]]. subst. auto.
Qed.

Lemma resume_act : forall n t w z b, p_st z t = Blocked b -> p_act (resume n t w z) = Some t.
Proof.
  intros n t w z b B. unfold resume. rewrite B. destruct b as [c tm|tm|k'|y|]; auto; cbv zeta.
  - unfold take_cq. destruct (p_q _ c); auto. destruct tm; auto.
  - unfold take_any. destruct (first_of _ _) as [[[? ?] ?]|]; auto. destruct tm; auto.
  - unfold delete. match goal with |- context [match ?x with Unborn => _ | _ => _ end] => destruct x end; auto.
Qed.

(** ** C117: no thread sleeps while what it waits for is there *)
(** A thread waiting for a queue only sleeps when every item ever put into it has been handed out. *)
Theorem C117_no_lost_wakeup_partial : forall n l s t, good n l s ->
  (forall c tm, p_st s t = Blocked (WCq c tm) -> put_in c l = handed c (p_log s)) /\
  (forall tm, p_st s t = Blocked (WAny tm) -> forall c, c < n -> put_in c l = handed c (p_log s)).
Proof.
  intros n l s t G. pose proof (i_thr _ _ _ (good_inv _ _ _ G) t) as T. unfold thr_ok in T. split.
  - intros c tm B. rewrite B in T. destruct T as (_ & _ & Q & _). rewrite (good_items _ _ _ G c), Q. apply app_nil_r.
  - intros tm B c Hc. rewrite B in T. destruct T as (_ & _ & Q & _). rewrite (good_items _ _ _ G c), (Q c Hc). apply app_nil_r.
Qed.
Print Assumptions C117_no_lost_wakeup_partial.

(** An item that arrives while threads wait for its queue, or for any queue, is handed at once to one
    of them, and to one that waits for this queue if there is one. *)
Theorem C117_arrival_wakes_partial : forall n l s c i t b, good n l s -> p_act s = None -> c < n ->
  p_st s t = Blocked b -> (exists tm, b = WCq c tm \/ b = WAny tm) ->
  exists s' t' b', step n (Arrive c i) s = Some s' /\ p_log s' = p_log s ++ [Back t' b' ByItem; Got t' c i] /\
    p_st s t' = Blocked b' /\ ((exists tm, b' = WCq c tm) \/ ((exists tm, b' = WAny tm) /\ forall x tm, p_st s x <> Blocked (WCq c tm))).
Proof.
  intros n l s c i t b G A Hc B W. pose proof (good_inv _ _ _ G) as I.
  unfold step. rewrite A. apply Nat.ltb_lt in Hc as Hc'. rewrite Hc'.
  destruct (p_pend s c) as [|t' r] eqn:P.
  - assert (NW : forall x tm, p_st s x <> Blocked (WCq c tm)).
    { intros x tm E. pose proof (i_thr _ _ _ I x) as T. unfold thr_ok in T. rewrite E, P in T. simpl in T. tauto. }
    destruct (p_any s) as [|t' r] eqn:P'.
    + exfalso. destruct W as [tm [->| ->]]; [eapply NW; eauto|]. pose proof (i_thr _ _ _ I t) as T. unfold thr_ok in T. rewrite B, P' in T. simpl in T. tauto.
    + destruct (arrive_any n _ s t' r c i Hc I A P P') as (tm & B' & _ & X & _). exists (incoming n c i ByItem s), t', (WAny tm).
      repeat split; auto. right. split; eauto.
  - destruct (arrive_cq n _ s t' r c i I A P) as (tm & B' & _ & X & _). exists (incoming n c i ByItem s), t', (WCq c tm).
    repeat split; auto. left. eauto.
Qed.
Print Assumptions C117_arrival_wakes_partial.

(** The event that wakes a thread is never lost: unless a thread waits for an item without a timeout,
    or joins a thread that has not ended, an event is there that makes it continue. *)
Theorem C117_wake_pending_partial : forall n l s t b, good n l s -> p_act s = None -> p_st s t = Blocked b ->
  match b with
  | WCq _ false | WAny false => True
  | WJoin y => (p_st s y <> Done /\ p_st s y <> Gone) \/
      exists k s', step n (Fire k) s = Some s' /\ p_act s' = Some t /\ p_log s' = p_log s ++ [Back t b (ByJoin y)]
  | WCq _ true | WAny true => exists k s', step n (Fire k) s = Some s' /\ p_act s' = Some t /\ p_log s' = p_log s ++ [Back t b ByTimeout; Null t]
  | WTimer k' => exists k s', step n (Fire k) s = Some s' /\ p_act s' = Some t /\ p_log s' = p_log s ++ [Back t b (ByTimer k')]
  | WStart => exists k s', step n (Fire k) s = Some s' /\ p_act s' = Some t /\ p_log s' = p_log s ++ [Back t b ByStart]
  end.
Proof.
  intros n l s t b G A B. pose proof (good_inv _ _ _ G) as I.
  pose proof (i_thr _ _ _ I t) as T. unfold thr_ok in T. rewrite B in T.
  assert (FW : forall w, causes t (p_ev s) = [w] -> exists k s', step n (Fire k) s = Some s' /\ p_act s' = Some t /\ p_log s' = p_log s ++ [Back t b w]).
  { intros w C. apply cause_in in C. destruct (fire_in n _ s _ I A C) as (k & u & v & E & F). exists k. eexists. split; [exact F|].
    destruct (fire_wake n _ s t w u v I A E) as (I' & _ & b' & B' & _ & L). rewrite B in B'. injection B' as <-. split; auto.
    simpl. apply resume_act with b. auto. }
  assert (FT : In (Tmo t (p_bc s t)) (p_ev s) -> exists k s', step n (Fire k) s = Some s' /\ p_act s' = Some t /\ p_log s' = p_log s ++ [Back t b ByTimeout; Null t]).
  { intros H. destruct (fire_in n _ s _ I A H) as (k & u & v & E & F). exists k. eexists. split; [exact F|].
    destruct (i_tmo _ _ _ I t (p_bc s t) H) as [X|(_ & b' & B' & X)]; [lia|]. rewrite B in B'. injection B' as <-.
    simpl. rewrite B, Nat.eqb_refl. unfold resume. simpl p_st. rewrite B. destruct X as [[c ->]| ->].
    - destruct T as (_ & _ & Q & _). cbv zeta. rewrite take_cq_null by (simpl; auto). split; auto. simpl. rewrite <- app_assoc. auto.
    - destruct T as (_ & _ & Q & _). cbv zeta. unfold take_any.
      match goal with |- context [first_of n ?z] => assert (FN : first_of n z = None) by (apply first_none; auto) end. rewrite FN.
      split; auto. simpl. rewrite <- app_assoc. auto. }
  destruct b as [c [|]|[|]|k'|y|]; auto.
  - apply FT. destruct T as (_ & _ & _ & T). auto.
  - apply FT. destruct T as (_ & _ & _ & T). auto.
  - destruct T as [_ [(_ & _ & H1 & H2)|(H1 & _ & _)]]; auto.
Qed.
Print Assumptions C117_wake_pending_partial.

(** Processes with one thread meet the conditions: any history that launches one thread, which starts
    and joins no other, is a good history. *)
Definition one_thread (l : list act) : Prop :=
  (forall t, ~ In (Start t) l) /\ (forall t, ~ In (Join t) l) /\ (forall t t', In (Launch t) l -> In (Launch t') l -> t = t').

Lemma take_cq_st : forall t c tm z, p_st (take_cq t c tm z) = p_st z.
Proof. intros. unfold take_cq. destruct (p_q z c); auto. destruct tm; auto. Qed.
Lemma take_any_st : forall n t tm z, p_st (take_any n t tm z) = p_st z.
Proof. intros. unfold take_any. destruct (first_of n z) as [[[? ?] ?]|]; auto. destruct tm; auto. Qed.
Lemma set_unborn : forall (f : nat -> tst) k v x, f k <> Unborn -> f x = Unborn -> set f k v x = Unborn.
Proof. intros. rewrite set_ne; auto. intros ->. contradiction. Qed.
Lemma resume_unborn : forall n t w z x, (forall y, p_st z t = Blocked (WJoin y) -> p_st z y <> Unborn) -> p_st z x = Unborn ->
  p_st (resume n t w z) x = Unborn.
Proof.
  intros n t w z x J U. unfold resume. destruct (p_st z t) as [| |b| |] eqn:E; auto.
  assert (X : set (p_st z) t Running x = Unborn) by (apply set_unborn; auto; congruence).
  destruct b as [c tm|tm|k|y|]; cbv zeta.
  - rewrite take_cq_st. auto.
  - rewrite take_any_st. auto.
  - auto.
  - unfold delete. set (z' := match p_st _ y with Done => _ | _ => _ end).
    assert (Hz : p_st z' = set (p_st z) t Running) by (subst z'; match goal with |- context [match ?x with Unborn => _ | _ => _ end] => destruct x end; auto).
    simpl. rewrite Hz. rewrite set_ne; auto. intros ->. eapply J; eauto.
  - auto.
Qed.
Lemma incoming_unborn : forall n J s c i x w, inv n J s -> p_st s x = Unborn -> p_st (incoming n c i w s) x = Unborn.
Proof.
  intros n J s c i x w I U. unfold incoming, unblock.
  destruct (p_pend s c) as [|t r] eqn:P.
  - destruct (p_any s) as [|t r] eqn:P'; auto. simpl p_act. destruct (p_act s); auto. apply resume_unborn; auto.
    intros y H. destruct (i_any _ _ _ I) as [_ K]. destruct (K t) as [tm K']; [rewrite P'; simpl; auto|]. simpl in H. congruence.
  - simpl p_act. destruct (p_act s); auto. apply resume_unborn; auto.
    intros y H. destruct (i_pend _ _ _ I c) as [_ K]. destruct (K t) as [tm K']; [rewrite P; simpl; auto|]. simpl in H. congruence.
Qed.
Lemma step_born : forall n J s a s' x, inv n J s -> (forall t, a <> Join t) -> step n a s = Some s' -> a <> Launch x -> a <> Start x ->
  p_st s x = Unborn -> p_st s' x = Unborn.
Proof.
  intros n J s a s' x I NJ ST NL NS U. unfold step in ST.
  destruct (p_act s) as [t|] eqn:A; destruct a as [c i|k|t'|c m|m|c i| |t'|t'|]; try discriminate.
  - destruct (c <? n); try discriminate. injection ST as <-. assert (R : p_st s t = Running) by (apply (i_act _ _ _ I); auto).
    unfold do_find. destruct (p_q s c), m; auto; simpl; apply set_unborn; auto; congruence.
  - injection ST as <-. assert (R : p_st s t = Running) by (apply (i_act _ _ _ I); auto).
    unfold do_any. destruct (first_of n s) as [[[? ?] ?]|], m; auto; simpl; apply set_unborn; auto; congruence.
  - destruct (c <? n); try discriminate. injection ST as <-. eapply incoming_unborn; eauto.
  - injection ST as <-. assert (R : p_st s t = Running) by (apply (i_act _ _ _ I); auto). simpl. apply set_unborn; auto; congruence.
  - destruct (p_st s t') eqn:E; try discriminate. injection ST as <-. simpl. rewrite set_ne by congruence. auto.
  - exfalso. eapply NJ; eauto.
  - injection ST as <-. assert (R : p_st s t = Running) by (apply (i_act _ _ _ I); auto). unfold do_exit.
    assert (FO : forall js z, p_act z = Some t -> p_st (fold_left (fun s j => unblock n j (ByJoin t) s) js z) = p_st z).
    { induction js as [|j js IH]; intros z Hz; simpl; auto. rewrite IH; unfold unblock; rewrite Hz; auto. }
    simpl. rewrite FO by auto. simpl. apply set_unborn; auto; congruence.
  - destruct (c <? n); try discriminate. injection ST as <-. eapply incoming_unborn; eauto.
  - destruct (cut k (p_ev s)) as [[e r]|] eqn:C; try discriminate. injection ST as <-.
    assert (JJ : forall t y, p_st s t = Blocked (WJoin y) -> causes t (p_ev s) <> [] -> p_st s y <> Unborn).
    { intros t y B H. pose proof (i_thr _ _ _ I t) as T. unfold thr_ok in T. rewrite B in T. destruct T as [_ [(H1 & _)|(_ & _ & H1)]]; congruence. }
    destruct (cut_causes _ _ _ _ 0 C) as (u & v & E & ->). destruct e as [t w|t j]; simpl.
    + apply resume_unborn; auto. intros y B. apply (JJ t); auto. rewrite E, causes_mid. simpl. rewrite Nat.eqb_refl. simpl. destruct (causes t u); discriminate.
    + destruct (p_st s t) eqn:B; auto; destruct (p_bc s t =? j) eqn:Q; auto; apply resume_unborn; auto; simpl; intros y By; try congruence.
      exfalso. apply Nat.eqb_eq in Q. subst j. destruct (i_tmo _ _ _ I t (p_bc s t)) as [H|(_ & b' & H1 & H2)]; [rewrite E; apply in_elt|lia|].
      rewrite By in H1. injection H1 as <-. destruct H2 as [[? H2]|H2]; discriminate.
  - destruct (p_st s t') eqn:E; try discriminate. injection ST as <-. simpl. rewrite set_ne by congruence. auto.
Qed.

Lemma one_thread_inv : forall n l s, good n l s -> (forall t, ~ In (Start t) l) -> (forall t, ~ In (Join t) l) -> forall x, p_st s x <> Unborn -> In (Launch x) l.
Proof.
  intros n l s G. induction G as [|l s a s' G IH Q F S]; intros NS NJ x H; [contradiction|].
  rewrite in_app_iff. simpl.
  assert (D : a = Launch x \/ a <> Launch x) by (destruct a; try (right; discriminate); destruct (Nat.eq_dec t x); [left; congruence|right; congruence]).
  destruct D as [->|NL]; auto. left. apply IH.
  - intros t Ht. apply (NS t). rewrite in_app_iff. auto.
  - intros t Ht. apply (NJ t). rewrite in_app_iff. auto.
  - intros U. apply H. eapply step_born; eauto using good_inv.
    + intros t ->. apply (NJ t). rewrite in_app_iff. simpl. auto.
    + intros ->. apply (NS x). rewrite in_app_iff. simpl. auto.
Qed.
Lemma run_snoc : forall n l a s, run n (l ++ [a]) s = match run n l s with Some s' => step n a s' | None => None end.
Proof. intros n l. induction l as [|x l IH]; intros a s; simpl; [destruct (step n a s); auto|]. destruct (step n x s); auto. Qed.

Theorem C117_one_thread : forall n l s, run n l start = Some s -> one_thread l -> good n l s.
Proof.
  intros n l. induction l as [|a l IH] using rev_ind; intros s R (NS & NJ & NL); [injection R as <-; constructor|].
  rewrite run_snoc in R. destruct (run n l start) as [s0|] eqn:E; [|discriminate].
  assert (G : good n l s0).
  { apply IH; auto. repeat split.
    - intros t Ht. apply (NS t). rewrite in_app_iff. auto.
    - intros t Ht. apply (NJ t). rewrite in_app_iff. auto.
    - intros t t' H H'. apply NL; rewrite in_app_iff; auto. }
  apply good_step with s0; auto.
  - destruct a as [| | | | |c i| | | |]; simpl; auto. pose proof (good_inv _ _ _ G) as I.
    assert (NS' : forall t, ~ In (Start t) l) by (intros t Ht; apply (NS t); rewrite in_app_iff; auto).
    assert (NJ' : forall t, ~ In (Join t) l) by (intros t Ht; apply (NJ t); rewrite in_app_iff; auto).
    unfold step in R. destruct (p_act s0) as [t|] eqn:A; [|discriminate]. apply (i_act _ _ _ I) in A.
    assert (U : forall x, p_st s0 x <> Unborn -> x = t).
    { intros x Hx. apply NL; rewrite in_app_iff; left; eapply one_thread_inv; eauto. congruence. }
    split.
    + destruct (p_pend s0 c) as [|x r] eqn:P; auto. exfalso. destruct (i_pend _ _ _ I c) as [_ K]. destruct (K x) as [tm B]; [rewrite P; simpl; auto|].
      assert (x = t) by (apply U; congruence). congruence.
    + destruct (p_any s0) as [|x r] eqn:P; auto. exfalso. destruct (i_any _ _ _ I) as [_ K]. destruct (K x) as [tm B]; [rewrite P; simpl; auto|].
      assert (x = t) by (apply U; congruence). congruence.
  - intros t ->. exfalso. apply (NJ t). rewrite in_app_iff. simpl. auto.
Qed.
Print Assumptions C117_one_thread.

(** Without the condition on [Post] it fails: with two threads in find and a third that posts two items
    (a message to its own rank, with the sender's queue also the receiver's), the first waiter is woken
    twice and the second never; the second wake-up cuts the first thread's computation short. *)
Definition two_posts : list act :=
  [Launch 1; Fire 0; Find 0 Block; Launch 2; Fire 0; Find 0 Block; Launch 3; Fire 0; Post 0 7; Post 0 8; Exit;
   Fire 0; Compute; Fire 0; Exit].
Theorem C117_two_posts_refuted : exists l s t, run 1 l start = Some s /\ (forall t, ~ In (Join t) l) /\
  p_act s = None /\ p_st s t = Blocked (WCq 0 false) /\ put_in 0 l <> handed 0 (p_log s) /\
  exists x k w, In (Back x (WTimer k) w) (p_log s) /\ ~ right_reason (WTimer k) w.
Proof.
  exists two_posts. eexists. exists 2. split; [vm_compute; reflexivity|]. split.
  { intros t H. simpl in H. repeat (destruct H as [H|H]; [discriminate|]). contradiction. }
  split; [reflexivity|]. split; [reflexivity|]. split; [vm_compute; discriminate|].
  exists 1, 1, ByPost. split; [|simpl; tauto]. simpl. tauto.
Qed.
Print Assumptions C117_two_posts_refuted.

Example C117_ex : exists s, run 2 [Launch 1; Fire 0; FindAny Block; Launch 2; Fire 0; Find 1 Block; Arrive 1 5; Compute; Arrive 1 6; Exit] start = Some s /\
  p_log s = [Back 1 WStart ByStart; Back 2 WStart ByStart; Back 2 (WCq 1 false) ByItem; Got 2 1 5; Back 1 (WAny false) ByItem; Got 1 1 6].
Proof. eexists. split; vm_compute; reflexivity. Qed.

(** ** C118: items *)
(** Every item is returned by exactly one find, in the order of arrival of its queue. *)
Theorem C118_items_once_in_order_partial : forall n l s c, good n l s -> exists waiting, put_in c l = handed c (p_log s) ++ waiting.
Proof. intros n l s c G. exists (p_q s c). apply (good_items n l s G). Qed.
Print Assumptions C118_items_once_in_order_partial.

(** A find returns the oldest item not yet handed out, at once. *)
Theorem C118_find_takes_oldest_partial : forall n l s t c m i r, good n l s -> p_act s = Some t -> c < n ->
  put_in c l = handed c (p_log s) ++ i :: r ->
  exists s', step n (Find c m) s = Some s' /\ p_act s' = Some t /\ p_log s' = p_log s ++ [Got t c i].
Proof.
  intros n l s t c m i r G A Hc H. rewrite (good_items _ _ _ G c) in H. apply app_inv_head in H.
  unfold step. rewrite A. apply Nat.ltb_lt in Hc. rewrite Hc. unfold do_find. rewrite H.
  exists (say (Got t c i) (set_q c r s)). destruct m; auto.
Qed.
Print Assumptions C118_find_takes_oldest_partial.

(** A find comes back empty only when it was told not to block and there is nothing, or when its own
    timeout has passed; a blocking find without timeout never does. *)
Theorem C118_empty_only_when_allowed_partial : forall n l s a s' t, good n l s -> good n (l ++ [a]) s' -> step n a s = Some s' ->
  forall tl, p_log s' = p_log s ++ tl -> In (Null t) tl ->
  ((exists c, a = Find c NoBlock /\ put_in c l = handed c (p_log s)) \/
   (a = FindAny NoBlock /\ forall c, c < n -> put_in c l = handed c (p_log s)) \/
   (exists k b, a = Fire k /\ p_st s t = Blocked b /\ ((exists c, b = WCq c true) \/ b = WAny true))) /\
  ~ In (Bad BEmpty) (p_log s').
Proof.
  intros n l s a s' t G G' ST tl L H. split.
  2: { intros B. pose proof (i_bad _ _ _ (good_inv _ _ _ G') _ B). discriminate. }
  pose proof (good_inv _ _ _ G) as I.
  assert (NIL : p_log s' = p_log s -> False).
  { intros E. rewrite E in L. rewrite <- (app_nil_r (p_log s)) in L at 1. apply app_inv_head in L. subst. contradiction. }
  assert (TLE : forall tl', p_log s' = p_log s ++ tl' -> In (Null t) tl').
  { intros tl' E. rewrite E in L. apply app_inv_head in L. subst. auto. }
  unfold step in ST. destruct (p_act s) as [t0|] eqn:A; destruct a as [c i|k|t'|c m|m|c i| |t'|t'|]; try discriminate.
  - destruct (c <? n) eqn:Hc; try discriminate. injection ST as <-. unfold do_find in *. destruct (p_q s c) as [|i r] eqn:Q.
    + destruct m; try (exfalso; apply NIL; reflexivity). left. exists c. split; auto. rewrite (good_items _ _ _ G c), Q. apply app_nil_r.
    + exfalso. assert (X : In (Null t) [Got t0 c i]) by (apply TLE; destruct m; reflexivity). destruct X as [X|[]]. discriminate.
  - injection ST as <-. unfold do_any in *. destruct (first_of n s) as [[[c i] r]|] eqn:Q.
    + exfalso. assert (X : In (Null t) [Got t0 c i]) by (apply TLE; destruct m; reflexivity). destruct X as [X|[]]. discriminate.
    + destruct m; try (exfalso; apply NIL; reflexivity). right. left. split; auto. intros c Hc.
      rewrite (good_items _ _ _ G c), (proj1 (first_none n s) Q c Hc). apply app_nil_r.
  - exfalso. destruct (c <? n) eqn:Hc; try discriminate. injection ST as <-. apply NIL. unfold incoming, unblock.
    destruct (p_pend s c); [destruct (p_any s)|]; simpl; try rewrite A; auto.
  - exfalso. injection ST as <-. apply NIL. auto.
  - exfalso. destruct (p_st s t'); try discriminate. injection ST as <-. apply NIL. auto.
  - exfalso. destruct (p_st s t') eqn:E; try discriminate; injection ST as <-; unfold do_join in *; rewrite E in *; try (apply NIL; reflexivity).
    + apply NIL. unfold delete. rewrite E. auto.
    + assert (X : In (Null t) [Bad BFreed]) by (apply TLE; reflexivity). destruct X as [X|[]]. discriminate.
  - exfalso. injection ST as <-. apply NIL. apply (exit_inv n _ s t0 I A).
  - exfalso. destruct (Nat.ltb_spec c n) as [Hc|]; try discriminate. injection ST as <-.
    destruct (p_pend s c) as [|x r] eqn:P.
    + destruct (p_any s) as [|x r] eqn:P'.
      * apply NIL. unfold incoming. rewrite P, P'. auto.
      * destruct (arrive_any n _ s x r c i Hc I A P P') as (tm & B & _ & X & _). apply TLE in X. simpl in X. destruct X as [X|[X|[]]]; discriminate.
    + destruct (arrive_cq n _ s x r c i I A P) as (tm & B & _ & X & _). apply TLE in X. simpl in X. destruct X as [X|[X|[]]]; discriminate.
  - right. right. destruct (cut k (p_ev s)) as [[e r]|] eqn:C; try discriminate. injection ST as <-.
    destruct (cut_causes _ _ _ _ 0 C) as (u & v & E & ->). destruct e as [x w|x j].
    + exfalso. destruct (fire_wake n _ s x w u v I A E) as (_ & _ & b & _ & _ & X). apply TLE in X. destruct X as [X|[]]. discriminate.
    + destruct (fire_tmo n _ s x j u v I A E) as (I' & _ & tl' & X & _ & D). apply TLE in X as Y.
      destruct D as [->|[[-> _]|(b & B & ->)]]; [contradiction|destruct Y as [Y|[]]; discriminate|].
      destruct Y as [Y|[Y|[]]]; [discriminate|]. injection Y as ->. exists k, b. repeat split; auto.
      assert (RR : right_reason b ByTimeout) by (apply (i_back _ _ _ I' t); rewrite X; apply in_or_app; simpl; auto).
      destruct b as [c [|]|[|]| | |]; simpl in RR; try discriminate; try contradiction; eauto.
  - exfalso. destruct (p_st s t'); try discriminate. injection ST as <-. apply NIL. auto.
Qed.
Print Assumptions C118_empty_only_when_allowed_partial.

(** With two posts a blocking find without timeout returns nothing. *)
Theorem C118_two_posts_refuted : exists l s t, run 1 l start = Some s /\ (forall t, ~ In (Join t) l) /\
  (forall c, ~ In (Find c BlockTm) l) /\ (forall m, ~ In (FindAny m) l) /\ (forall c, ~ In (Find c NoBlock) l) /\
  In (Null t) (p_log s) /\ In (Bad BEmpty) (p_log s).
Proof.
  exists [Launch 1; Fire 0; Find 0 Block; Launch 2; Fire 0; Find 0 Block; Launch 3; Fire 0; Post 0 7; Post 0 8; Exit;
   Fire 0; Find 0 Block; Find 0 Block; Fire 0].
  eexists. exists 1. split; [vm_compute; reflexivity|].
  assert (X : forall (P : act -> bool), forallb P [Launch 1; Fire 0; Find 0 Block; Launch 2; Fire 0; Find 0 Block; Launch 3; Fire 0; Post 0 7; Post 0 8; Exit;
   Fire 0; Find 0 Block; Find 0 Block; Fire 0] = true -> forall a, P a = false -> ~ In a [Launch 1; Fire 0; Find 0 Block; Launch 2; Fire 0; Find 0 Block; Launch 3; Fire 0; Post 0 7; Post 0 8; Exit;
   Fire 0; Find 0 Block; Find 0 Block; Fire 0]).
  { intros P H a Ha Hin. rewrite forallb_forall in H. rewrite (H a Hin) in Ha. discriminate. }
  split; [intros t; apply (X (fun a => match a with Join _ => false | _ => true end)); auto|].
  split; [intros c; apply (X (fun a => match a with Find _ BlockTm => false | _ => true end)); auto|].
  split; [intros c; apply (X (fun a => match a with FindAny _ => false | _ => true end)); auto|].
  split; [intros c; apply (X (fun a => match a with Find _ NoBlock => false | _ => true end)); auto|].
  simpl. tauto.
Qed.
Print Assumptions C118_two_posts_refuted.

Example C118_ex : exists s, run 1 [Arrive 0 5; Arrive 0 6; Launch 1; Fire 0; Find 0 Block; Find 0 NoBlock; Find 0 NoBlock; Find 0 BlockTm; Fire 0; Post 0 9; Find 0 Block] start = Some s /\
  p_log s = [Back 1 WStart ByStart; Got 1 0 5; Got 1 0 6; Null 1; Back 1 (WCq 0 true) ByTimeout; Null 1; Got 1 0 9].
Proof. eexists. split; vm_compute; reflexivity. Qed.

(** ** C119: why threads continue *)
(** A thread continues only for the reason it gave up the processor: a computation or sleep when its own
    timer has passed, a join when that thread has ended, a find when there is an item or its own timeout
    has passed. *)
Theorem C119_right_reason_partial : forall n l s t b w, good n l s -> In (Back t b w) (p_log s) -> right_reason b w.
Proof. intros n l s t b w G. apply (i_back _ _ _ (good_inv _ _ _ G)). Qed.
Print Assumptions C119_right_reason_partial.

Theorem C119_join_after_end_partial : forall n l s k s' t y w, good n l s -> step n (Fire k) s = Some s' ->
  p_log s' = p_log s ++ [Back t (WJoin y) w] -> p_st s y = Done /\ p_st s' y = Gone.
Proof.
  intros n l s k s' t y w G ST L. pose proof (good_inv _ _ _ G) as I. unfold step in ST.
  destruct (p_act s) eqn:A; [discriminate|]. destruct (cut k (p_ev s)) as [[e r]|] eqn:C; try discriminate. injection ST as <-.
  destruct (cut_causes _ _ _ _ 0 C) as (u & v & E & ->). destruct e as [x w'|x j].
  - destruct (fire_wake n _ s x w' u v I A E) as (_ & _ & b & B & _ & X). rewrite X in L. apply app_inv_head in L. injection L as -> -> ->.
    pose proof (i_thr _ _ _ I t) as T. unfold thr_ok in T. rewrite B in T.
    destruct T as (_ & [(T & _)|(_ & _ & D)]).
    { exfalso. rewrite E, causes_mid in T. simpl in T. rewrite Nat.eqb_refl in T. simpl in T. destruct (causes t u); discriminate. }
    split; auto. simpl. unfold resume. simpl p_st. rewrite B. unfold delete. simpl. apply set_eq.
  - destruct (fire_tmo n _ s x j u v I A E) as (_ & _ & tl' & X & _ & D). rewrite X in L. apply app_inv_head in L. subst tl'.
    destruct D as [D|[[D _]|(b & _ & D)]]; discriminate.
Qed.
Print Assumptions C119_join_after_end_partial.

(** At most one thread is active, and it is the one that runs. *)
Theorem C119_one_active_partial : forall n l s t t', good n l s -> p_st s t = Running -> p_st s t' = Running -> t = t'.
Proof. intros n l s t t' G H H'. pose proof (good_inv _ _ _ G) as I. apply (i_act _ _ _ I) in H, H'. congruence. Qed.
Print Assumptions C119_one_active_partial.

(** No fault ever occurs when no timeouts are used: no thread that is not paused is switched to, none is
    deleted before its end or used after it was deleted. *)
Lemma no_tmo_ev : forall n l s, good n l s -> no_timeouts l -> forall t k, ~ In (Tmo t k) (p_ev s).
Proof.
  intros n l s G. induction G as [|l s a s' G IH Q F ST]; intros NT t k H; [contradiction|].
  assert (NT0 : no_timeouts l) by (intros b Hb; apply NT; rewrite in_app_iff; auto).
  assert (NTa : match a with Find _ BlockTm | FindAny BlockTm => False | _ => True end) by (apply NT; rewrite in_app_iff; simpl; auto).
  specialize (IH NT0). pose proof (good_inv _ _ _ G) as I.
  assert (RS : forall x w z, p_ev (resume n x w z) = p_ev z).
  { intros. unfold resume. destruct (p_st z x) as [| |[c tm|tm|j|y|]| |]; auto; cbv zeta.
    - unfold take_cq. destruct (p_q _ c); auto. destruct tm; auto.
    - unfold take_any. destruct (first_of _ _) as [[[? ?] ?]|]; auto. destruct tm; auto.
    - unfold delete. match goal with |- context [match ?x with Unborn => _ | _ => _ end] => destruct x end; auto. }
  assert (UB : forall x w z, In (Tmo t k) (p_ev (unblock n x w z)) -> In (Tmo t k) (p_ev z)).
  { intros x w z. unfold unblock. destruct (p_act z); [|rewrite RS; auto]. simpl. rewrite in_app_iff. simpl. intros [X|[X|[]]]; auto. discriminate. }
  apply (IH t k). unfold step in ST. destruct (p_act s) as [t0|] eqn:A; destruct a as [c i|j|t'|c m|m|c i| |t'|t'|]; try discriminate.
  - destruct (c <? n); try discriminate. injection ST as <-. unfold do_find in H. destruct (p_q s c), m; auto; contradiction.
  - injection ST as <-. unfold do_any in H. destruct (first_of n s) as [[[? ?] ?]|], m; auto; contradiction.
  - destruct (c <? n); try discriminate. injection ST as <-. unfold incoming in H. destruct (p_pend s c); [destruct (p_any s)|]; auto; apply UB in H; auto.
  - injection ST as <-. simpl in H. apply in_app_iff in H as [H|[H|[]]]; auto. discriminate.
  - destruct (p_st s t'); try discriminate. injection ST as <-. simpl in H. apply in_app_iff in H as [H|[H|[]]]; auto. discriminate.
  - destruct (p_st s t') eqn:E; try discriminate; injection ST as <-; unfold do_join in H; rewrite E in H; auto. unfold delete in H. rewrite E in H. auto.
  - injection ST as <-. unfold do_exit in H. simpl in H.
    assert (FO : forall js z, In (Tmo t k) (p_ev (fold_left (fun s j => unblock n j (ByJoin t0) s) js z)) -> In (Tmo t k) (p_ev z)).
    { induction js as [|j js IHj]; intros z; simpl; auto. intros X. apply IHj in X. apply UB in X. auto. }
    apply FO in H. auto.
  - destruct (c <? n); try discriminate. injection ST as <-. unfold incoming in H. destruct (p_pend s c); [destruct (p_any s)|]; auto; apply UB in H; auto.
  - destruct (cut j (p_ev s)) as [[e r]|] eqn:C; try discriminate. injection ST as <-.
    destruct (cut_causes _ _ _ _ 0 C) as (u & v & E & ->).
    assert (X : In (Tmo t k) (u ++ v)).
    { destruct e as [x w|x j']; simpl in H; [rewrite RS in H; auto|]. destruct (p_st s x); auto; destruct (p_bc s x =? j'); auto; rewrite RS in H; auto. }
    rewrite E. apply in_app_iff in X as [X|X]; apply in_or_app; simpl; auto.
  - destruct (p_st s t'); try discriminate. injection ST as <-. simpl in H. apply in_app_iff in H as [H|[H|[]]]; auto. discriminate.
Qed.
Theorem C119_no_faults_partial : forall n l s f, good n l s -> no_timeouts l -> ~ In (Bad f) (p_log s).
Proof.
  intros n l s f G. induction G as [|l s a s' G IH Q F ST]; intros NT H; [contradiction|].
  assert (NT0 : no_timeouts l) by (intros b Hb; apply NT; rewrite in_app_iff; auto).
  assert (G' : good n (l ++ [a]) s') by (econstructor; eauto).
  pose proof (good_inv _ _ _ G) as I. pose proof (i_bad _ _ _ (good_inv _ _ _ G') _ H) as ->.
  pose proof (no_tmo_ev n l s G NT0) as NE.
  assert (KEEP : forall tl, p_log s' = p_log s ++ tl -> In (Bad BStale) tl).
  { intros tl E. rewrite E in H. apply in_app_iff in H as [H|H]; auto. exfalso. eapply IH; eauto. }
  assert (NIL : p_log s' <> p_log s) by (intros E; apply (KEEP []); rewrite E, app_nil_r; auto).
  unfold step in ST. destruct (p_act s) as [t0|] eqn:A; destruct a as [c i|k|t'|c m|m|c i| |t'|t'|]; try discriminate.
  - destruct (c <? n) eqn:Hc; try discriminate. injection ST as <-. unfold do_find in *. destruct (p_q s c) as [|i r] eqn:E.
    + destruct m; try (apply NIL; reflexivity). assert (X : In (Bad BStale) [Null t0]) by (apply KEEP; reflexivity). destruct X as [X|[]]; discriminate.
    + assert (X : In (Bad BStale) [Got t0 c i]) by (apply KEEP; destruct m; reflexivity). destruct X as [X|[]]. discriminate.
  - injection ST as <-. unfold do_any in *. destruct (first_of n s) as [[[c i] r]|] eqn:E.
    + assert (X : In (Bad BStale) [Got t0 c i]) by (apply KEEP; destruct m; reflexivity). destruct X as [X|[]]. discriminate.
    + destruct m; try (apply NIL; reflexivity). assert (X : In (Bad BStale) [Null t0]) by (apply KEEP; reflexivity). destruct X as [X|[]]; discriminate.
  - destruct (c <? n) eqn:Hc; try discriminate. injection ST as <-. apply NIL. unfold incoming, unblock.
    destruct (p_pend s c); [destruct (p_any s)|]; simpl; try rewrite A; auto.
  - injection ST as <-. apply NIL. auto.
  - destruct (p_st s t'); try discriminate. injection ST as <-. apply NIL. auto.
  - destruct (p_st s t') eqn:E; try discriminate; injection ST as <-; unfold do_join in *; rewrite E in *; try (apply NIL; reflexivity).
    + apply NIL. unfold delete. rewrite E. auto.
    + assert (X : In (Bad BStale) [Bad BFreed]) by (apply KEEP; reflexivity). destruct X as [X|[]]. discriminate.
  - injection ST as <-. apply NIL. apply (exit_inv n _ s t0 I A).
  - destruct (Nat.ltb_spec c n) as [Hc|]; try discriminate. injection ST as <-.
    destruct (p_pend s c) as [|x r] eqn:P.
    + destruct (p_any s) as [|x r] eqn:P'.
      * apply NIL. unfold incoming. rewrite P, P'. auto.
      * destruct (arrive_any n _ s x r c i Hc I A P P') as (tm & B & _ & X & _). apply KEEP in X. simpl in X. destruct X as [X|[X|[]]]; discriminate.
    + destruct (arrive_cq n _ s x r c i I A P) as (tm & B & _ & X & _). apply KEEP in X. simpl in X. destruct X as [X|[X|[]]]; discriminate.
  - destruct (cut k (p_ev s)) as [[e r]|] eqn:C; try discriminate. injection ST as <-.
    destruct (cut_causes _ _ _ _ 0 C) as (u & v & E & ->). destruct e as [x w|x j].
    + destruct (fire_wake n _ s x w u v I A E) as (_ & _ & b & _ & _ & X). apply KEEP in X. destruct X as [X|[]]. discriminate.
    + apply (NE x j). rewrite E. apply in_elt.
  - destruct (p_st s t'); try discriminate. injection ST as <-. apply NIL. auto.
Qed.
Print Assumptions C119_no_faults_partial.

(** With a timeout there is one: the item came in time, the thread ended and was joined, and then the
    timeout event reads the block counter of the deleted thread. *)
Theorem C119_stale_timeout_refuted : exists l s, good 1 l s /\ In (Bad BStale) (p_log s).
Proof.
  assert (GR : forall n l l0 s0 s1, good n l0 s0 -> run n l s0 = Some s1 ->
     (forall c i, ~ In (Post c i) l) -> (forall t, In (Join t) l -> ~ In (Join t) l0) -> NoDup (flat_map (fun a => match a with Join t => [t] | _ => [] end) l) ->
     good n (l0 ++ l) s1).
  { intros n l. induction l as [|a l IH]; intros l0 s0 s1 G R NP NJ ND.
    - injection R as <-. rewrite app_nil_r. auto.
    - simpl in R. destruct (step n a s0) as [s2|] eqn:ST; [|discriminate].
      change (a :: l) with ([a] ++ l). rewrite app_assoc. apply IH with s2; auto.
      + econstructor; eauto.
        * destruct a; simpl; auto. exfalso. eapply NP. simpl. auto.
        * intros t ->. apply NJ. simpl. auto.
      + intros c i H. eapply NP. simpl. eauto.
      + intros t H. rewrite in_app_iff. simpl. intros [H1|[->|[]]]; [eapply NJ; simpl; eauto|].
        simpl in ND. inversion ND as [|? ? N1 N2]; subst. apply N1. apply in_flat_map. exists (Join t). simpl. auto.
      + destruct a; simpl in ND; auto. inversion ND; auto. }
  exists ([] ++ [Launch 1; Fire 0; Find 0 BlockTm; Arrive 0 5; Exit; Launch 2; Fire 1; Join 1; Exit; Fire 0]). eexists. split.
  - eapply GR; [constructor|vm_compute; reflexivity| | |].
    + intros c i H. simpl in H. repeat (destruct H as [H|H]; [discriminate|]). contradiction.
    + intros t _ [].
    + simpl. repeat constructor. simpl. tauto.
  - simpl. tauto.
Qed.
Print Assumptions C119_stale_timeout_refuted.

Example C119_ex : exists s, run 1 [Launch 1; Fire 0; Start 2; Compute; Fire 0; Compute; Fire 0; Join 2; Fire 0; Exit; Fire 0] start = Some s /\
  p_log s = [Back 1 WStart ByStart; Back 2 WStart ByStart; Back 1 (WTimer 0) (ByTimer 0); Back 2 (WTimer 0) (ByTimer 0); Back 1 (WJoin 2) (ByJoin 2)] /\
  p_st s 2 = Gone /\ p_act s = Some 1.
Proof. eexists. split; [vm_compute; reflexivity|]. repeat split. Qed.
