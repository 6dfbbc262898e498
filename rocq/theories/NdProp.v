(** Early messages on a node: properties C127 to C132. *)
From Coq Require Import List Arith Bool ZArith Lia Permutation.
From Verif Require Import NdModel NdSpec NdProof NdRun.
Import ListNotations.

Lemma content_end k c n : delayed (nos n) = [] -> inv n ->
  (exists t, runs k t n /\ (c = None \/ exists i h, c = Some i /\ nth_error (queues t) i = Some (Some h))) ->
  content k c n = filter (aims k c) (ended n).
Proof.
  intros D I (t & (s & S & Q) & H). destruct (i_some n I s S) as (A1 & A2 & A3 & A4 & A5 & [H1 H2 H3 H4]).
  unfold content, held_of, waits. rewrite S, Q, D, A3. simpl (filter _ (map snd [])).
  assert (Z1 : filter (aims k c) (map snd (held t)) = []).
  { apply filter_nil. intros y Hy. apply in_map_iff in Hy as [[c' m'] [<- Hy]]. simpl.
    destruct (aims k c m') eqn:B; auto. apply aims_spec in B as [B1 B2].
    apply (H2 _ _ Q) in Hy as (Y1 & Y2 & Y3).
    destruct H as [H|(i & h & H & H')]; [congruence|]. assert (i = c') by congruence. subst. now apply Y3 in H'. }
  assert (Z2 : filter (aims k c) (waiting s) = []).
  { apply filter_nil. intros y Hy. destruct (aims k c y) eqn:B; auto. apply aims_spec in B as [B1 B2].
    apply H3 in Hy. congruence. }
  now rewrite Z1, Z2, !app_nil_r.
Qed.

(** C127. Whatever arrives is dealt with once or still kept, and it is not kept when its process runs,
    has a callback for the queue, and the callbacks of registerLib were executed. *)
Theorem early_messages_once : forall ops n, run ops node0 = Ok n -> forall k c, exists rest,
  Permutation (filter (aims k c) (arrived ops)) (filter (aims k c) (ended n) ++ rest) /\
  (delayed (nos n) = [] ->
   (exists t, runs k t n /\
      (c = None \/ exists i h, c = Some i /\ nth_error (queues t) i = Some (Some h))) ->
   rest = []).
Proof.
  intros ops n E k c. pose proof (run_perm ops node0 n inv0 E k c) as P.
  assert (content k c node0 = []) as Z by reflexivity. rewrite Z in P. simpl app in P.
  eexists. split; [exact P|]. intros D H.
  pose proof (content_end k c n D (run_inv _ _ _ inv0 E) H) as C. unfold content in C.
  apply (app_inv_head (filter (aims k c) (ended n))). rewrite app_nil_r. exact C.
Qed.
(** Messages are handed to a callback installed by their own process for their own queue; only messages
    without queue go to the null callback; only a process that ends abandons messages, its own. *)
Theorem messages_reach_their_queue : forall ops n k x m,
  run ops node0 = Ok n -> In (k, x, m) (out n) ->
  k = m_key m /\
  match x with
  | Handed h => exists c, meant m = Some c /\ (c = 0 /\ h = default_handler \/ In (AllocCq k c h) ops)
  | Nulled => meant m = None
  | Abandoned => In (Stop k) ops
  end.
Proof.
  intros ops. set (orig := fun k c h => c = 0 /\ h = default_handler \/ In (AllocCq k c h) ops).
  set (good := fun e : key * outcome * msg => let '(k, x, m) := e in k = m_key m /\
    match x with
    | Handed h => exists c, m_cq m = Some c /\ orig k c h
    | Nulled => m_cq m = None
    | Abandoned => In (Stop k) ops
    end).
  assert (G : forall l n n', incl l ops -> inv n ->
    (forall k t c h, runs k t n -> nth_error (queues t) c = Some (Some h) -> orig k c h) ->
    (forall e, In e (out n) -> good e) -> run l n = Ok n' -> forall e, In e (out n') -> good e).
  { assert (NT : forall t k c h, queues t = queues new_tport -> nth_error (queues t) c = Some (Some h) -> orig k c h).
    { intros t k c h -> Q. destruct c as [|c]; simpl in Q; [|now destruct c]. injection Q as <-. left. auto. }
    induction l as [|a l IH]; simpl run; intros n n' L I O Gd E; [injection E as <-; exact Gd|].
    destruct (step a n) as [n1|] eqn:E1; [|discriminate]. simpl in E.
    destruct (step_out a n n1 I E1) as (o & O1 & O2 & O3 & O4).
    assert (La : In a ops) by (apply L; now left).
    apply (IH n1 n'); auto.
    - intros x Hx. apply L. now right.
    - eapply step_spec; eauto.
    - intros k t c h R Q. apply O4 in R as [[-> R]|(u & R & M)]; [eapply NT; eauto|].
      destruct M as [[M _]|[[M1 M2]|[(i & g & M1 & M2)|(i & M1 & M2)]]].
      + rewrite M in Q. eapply O; eauto.
      + subst t. unfold tp_alloc_id in Q. destruct (free u) as [|y r]; simpl in Q; [|eapply O; eauto].
        destruct (Nat.lt_ge_cases c (length (queues u))) as [Lt|Ge].
        * rewrite nth_error_app1 in Q by auto. eapply O; eauto.
        * rewrite nth_error_app2 in Q by auto. destruct (c - length (queues u)) as [|z]; simpl in Q; [discriminate|].
          destruct z; discriminate.
      + unfold tp_alloc_cq in M2. destruct (i <? length (queues u)); [|discriminate].
        destruct (existsb _ _); [discriminate|]. injection M2 as <-. cbn [queues] in Q.
        rewrite set_nth_nth in Q. destruct (Nat.eqb_spec i c); simpl in Q; [|eapply O; eauto].
        destruct (c <? length (queues u)); [|eapply O; eauto]. injection Q as <-. subst. right. exact La.
      + subst t. eapply O; eauto.
    - intros e He. rewrite O1 in He. apply in_app_iff in He as [He|He]; [auto|].
      apply O2 in He. destruct e as [[k x] m]. destruct He as [He1 He2]. split; [auto|].
      destruct x as [h| |]; auto.
      + destruct He2 as (t & c & R & C & Q). exists c. split; auto.
        destruct R as [R|[R1 R2]]; [eapply O; eauto|eapply NT; eauto].
      + now rewrite He2 in La. }
  intros n k x m E Hi. rewrite !meant_cq.
  apply (G ops node0 n (incl_refl _) inv0) in Hi; auto.
  - intros k0 t c h (s & S & _). discriminate.
  - intros e [].
Qed.
(** When the node is used properly, a run does not fail, and the outstanding callbacks can be executed. *)
Theorem proper_never_fails : forall ops, proper_run ops node0 -> exists n,
  run ops node0 = Ok n /\
  (installed n -> exists n', run (repeat RunNext (length (delayed (nos n)))) n = Ok n' /\
                             delayed (nos n') = []).
Proof.
  intros ops P. destruct (proper_total ops node0 inv0) as (n & E & B); auto.
  - intros x [].
  - exists n. split; auto. intros H. apply drain; auto. eapply run_inv; eauto using inv0.
Qed.

(** C128. Messages for one queue are dealt with in the order of arrival, if none arrives while a callback
    of registerLib is outstanding. *)
Theorem arrival_order_partial : forall ops n, run ops node0 = Ok n -> quiet_run ops node0 ->
  forall k c, exists rest, filter (aims k c) (arrived ops) = filter (aims k c) (ended n) ++ rest.
Proof.
  intros ops n E Q k c. pose proof (run_eq ops node0 n inv0 Q E k c) as P.
  simpl app in P. eexists. exact P.
Qed.
Definition k0 : key := (7, 0).
Definition k1 : key := (7, 1).
Definition to (k : key) (c d : nat) : msg := mkmsg k (Some c) None false d.
(** Otherwise the second of two messages can be handed out first, although nothing fails. *)
Theorem arrival_order_refuted : exists ops n, run ops node0 = Ok n /\ proper_run ops node0 /\
  exists a b, arrived ops = [a; b] /\ aims k0 (Some 0) a = true /\ aims k0 (Some 0) b = true /\
    out n = [(k0, Handed default_handler, b); (k0, Handed default_handler, a)] /\ a <> b.
Proof.
  exists [Arrive (to k0 0 1); Start k0; Arrive (to k0 0 2); RunNext]. eexists.
  split; [reflexivity|]. split.
  - simpl. unfold installed, runs. split; [intros k t (s & S & _); discriminate|].
    intros n1 [= <-]. split; [intros t (s & S & _); discriminate|].
    intros n1 [= <-]. split.
    { intros k t (s & [= <-] & Q). simpl in Q. destruct (keq k0 k); [|discriminate].
      injection Q as <-. simpl. intuition discriminate. }
    intros n1 [= <-]. split; [|auto].
    intros k t (s & [= <-] & Q). simpl in Q. destruct (keq k0 k); [|discriminate].
    injection Q as <-. simpl. intuition discriminate.
  - exists (to k0 0 1), (to k0 0 2). repeat split. discriminate.
Qed.

(** C129. A message that came before its queue was set up makes the set-up fail. *)
Theorem early_queue_refuted : exists ops k h, run ops node0 <> Fail EmptyFunction /\
  (exists n t m, run ops node0 = Ok n /\ runs k t n /\ In (1, m) (held t) /\ length (queues t) = 2) /\
  run (ops ++ [AllocCq k 1 h]) node0 = Fail EmptyFunction.
Proof.
  exists [Start k0; Arrive (to k0 1 5); AllocId k0], k0, 9. split; [discriminate|]. split; [|reflexivity].
  eexists _, _, (to k0 1 5). split; [reflexivity|]. split; [eexists; split; reflexivity|].
  split; [now left|reflexivity].
Qed.
(** Such a message is never handed out, and neither is any later one for this queue, as long as the process
    runs. *)
Definition handed_to (k : key) (i : nat) (e : key * outcome * msg) : bool :=
  let '(k', x, m) := e in keq k' k && cq_is (Some i) m && match x with Handed _ => true | _ => false end.
Theorem held_never_handed : forall l1 l2 n n' k t i m,
  run l1 node0 = Ok n -> runs k t n -> In (i, m) (held t) ->
  run l2 n = Ok n' -> ~ In (Stop k) l2 ->
  filter (handed_to k i) (out n') = filter (handed_to k i) (out n) /\
  exists t', runs k t' n' /\ In (i, m) (held t').
Proof.
  intros l1 l2. intros n n' k t i m E1. assert (I : inv n) by (eapply run_inv; eauto using inv0). clear E1 l1.
  revert n t I. induction l2 as [|a l IH]; simpl run; intros n t I R H E NS.
  - injection E as <-. eauto.
  - destruct (step a n) as [n1|] eqn:E1; [|discriminate]. simpl in E.
    destruct (step_out a n n1 I E1) as (o & O1 & O2 & O3 & O4).
    destruct (O3 k t R) as (t1 & R1 & _ & Hh); [intros ->; apply NS; now left|].
    destruct (IH n1 t1) as [F X]; auto.
    + eapply step_spec; eauto.
    + intros X. apply NS. now right.
    + split; [|exact X]. rewrite F, O1, filter_app.
      rewrite (filter_nil _ _ o), app_nil_r; [reflexivity|].
      intros [[k' x] m'] He. unfold handed_to. destruct (keq_spec k' k) as [->|]; [|reflexivity]. cbn [andb].
      destruct x as [h| |]; rewrite ?andb_false_r; auto.
      apply O2 in He as (_ & t2 & c & R2 & C & Q). destruct (cq_is (Some i) m') eqn:CI; auto.
      unfold cq_is in CI. rewrite meant_cq, C in CI. apply Nat.eqb_eq in CI. subst c. exfalso.
      assert (T : t2 = t \/ a = Start k).
      { destruct R2 as [(s & S & Q2)|[R2 _]]; [left|auto]. destruct R as (s' & S' & Q').
        rewrite S in S'. injection S' as <-. congruence. }
      destruct T as [->|T].
      * destruct R as (s & S & Q'). destruct (i_some n I s S) as (_ & _ & _ & _ & _ & SO).
        apply (so_tp s SO k t Q') in H as (_ & _ & H). now apply H in Q.
      * subst a. destruct (start_step k n n1 I E1) as (n2 & s & s' & o2 & S & RG & _ & _ & _ & _ & W).
        destruct R as (x & X1 & X2). destruct W as [[W1 _]|[W1 _]]; [|congruence].
        rewrite W1 in X1. injection X1 as <-. unfold srv_register in RG. rewrite X2 in RG. discriminate.
Qed.
(** A message for a reserved number without callback fails as well. *)
Theorem reserved_queue_refuted : exists ops m, run ops node0 <> Fail EmptyFunction /\
  run (ops ++ [Arrive m]) node0 = Fail EmptyFunction.
Proof. exists [Start k0; AllocId k0], (to k0 1 5). split; [discriminate|reflexivity]. Qed.
(** A callback is still called after its queue was given back. *)
Theorem stale_queue_refuted : exists ops k i m n, run (ops ++ [DeallocCq k i; Arrive m]) node0 = Ok n /\
  m_cq m = Some i /\ exists h, out n = [(k, Handed h, m)] /\ In (AllocCq k i h) ops.
Proof.
  exists [Start k0; AllocId k0; AllocCq k0 1 9], k0, 1, (to k0 1 5). eexists.
  split; [reflexivity|]. split; [reflexivity|]. exists 9. split; [reflexivity|]. simpl; auto.
Qed.

(** Queue numbers in use are different, if only numbers in use are given back. *)
Lemma reserve_inv l : forall t used, releases_ok l t used ->
  NoDup (free t) -> NoDup used -> (forall i, In i used -> ~ In i (free t)) ->
  (forall i, In i used -> 0 < i < length (queues t)) ->
  (forall i, In i (free t) -> 0 < i < length (queues t)) -> 0 < length (queues t) ->
  NoDup (snd (reserve_run l t used)) /\
  forall i, In i (snd (reserve_run l t used)) -> 0 < i < length (queues (fst (reserve_run l t used))).
Proof.
  induction l as [|[|i] l IH]; simpl; intros t used R F U D B1 B2 L; auto.
  - unfold tp_alloc_id in *. destruct (free t) as [|x r] eqn:Fr; apply IH; cbn [free queues]; auto;
      rewrite ?app_length; simpl; try lia; try tauto.
    + constructor; auto. intros X. apply B1 in X. lia.
    + intros i [<-|X]; [lia|]. apply B1 in X. lia.
    + now inversion F.
    + constructor; auto. intros X. apply (D _ X). now left.
    + inversion F; subst. intros i [<-|X] Y; auto. apply (D _ X). now right.
    + intros i [<-|X]; [apply B2; now left|auto].
    + intros i X. apply B2. now right.
  - destruct R as [R1 R2]. apply IH; cbn [tp_dealloc free queues]; auto.
    + apply (Permutation_NoDup (Permutation_cons_append _ _)). constructor; auto.
    + apply NoDup_filter. auto.
    + intros j Hj X. apply filter_In in Hj as [Hj N]. apply in_app_iff in X as [X|[<-|[]]].
      * now apply (D j).
      * now rewrite Nat.eqb_refl in N.
    + intros j Hj. apply filter_In in Hj as [Hj _]. auto.
    + intros j Hj. apply in_app_iff in Hj as [Hj|[<-|[]]]; auto.
Qed.
Theorem queue_numbers_distinct : forall l, releases_ok l new_tport [] ->
  NoDup (snd (reserve_run l new_tport [])) /\ ~ In 0 (snd (reserve_run l new_tport [])).
Proof.
  intros l R. destruct (reserve_inv l new_tport []) as [A B]; simpl; auto; try constructor; try tauto.
  intros X. apply B in X. lia.
Qed.

(** C130. When no process runs and every message was dealt with, the server is gone and the operating
    system can be deleted. *)
Theorem clean_end_partial : forall ops n, run ops node0 = Ok n ->
  (forall k t, ~ runs k t n) ->
  (forall k c, Permutation (filter (aims k c) (arrived ops)) (filter (aims k c) (ended n))) ->
  srv n = None /\ libs (nos n) = [] /\ teardown_ok n = true /\ delayed (nos n) = [].
Proof.
  intros ops n E NR A. assert (I : inv n) by (eapply run_inv; eauto using inv0).
  assert (C : forall k c, filter (aims k c) (held_of k n) ++ filter (aims k c) (waits n) ++
    filter (aims k c) (map snd (delayed (nos n))) ++ filter (aims k c) (map snd (pend (nos n))) = []).
  { intros k c. pose proof (run_perm ops node0 n inv0 E k c) as P. simpl app in P.
    specialize (A k c). rewrite A in P. apply Permutation_length in P. unfold content in P.
    rewrite app_length in P. match goal with |- ?x = [] => destruct x end; auto. simpl in P. lia. }
  assert (N : forall l : list msg, (forall k c, filter (aims k c) l = []) -> l = []).
  { intros [|m l] H; auto. specialize (H (m_key m) (m_cq m)). simpl in H.
    assert (aims (m_key m) (m_cq m) m = true) by (apply aims_spec; auto). rewrite H0 in H. discriminate. }
  assert (W : waits n = []). { apply N. intros k c. specialize (C k c).
    apply app_eq_nil in C as [_ C]. now apply app_eq_nil in C as [C _]. }
  assert (D : map snd (delayed (nos n)) = []). { apply N. intros k c. specialize (C k c).
    apply app_eq_nil in C as [_ C]. apply app_eq_nil in C as [_ C]. now apply app_eq_nil in C as [C _]. }
  assert (P : map snd (pend (nos n)) = []). { apply N. intros k c. specialize (C k c).
    apply app_eq_nil in C as [_ C]. apply app_eq_nil in C as [_ C]. now apply app_eq_nil in C as [_ C]. }
  assert (S : srv n = None).
  { destruct (srv n) as [s|] eqn:S; auto. exfalso.
    destruct (i_some n I s S) as (A1 & A2 & A3 & A4 & A5 & [H1 H2 H3 H4]).
    destruct (procs s) as [|[k v] ps] eqn:PS; [congruence|].
    assert (F : find2 k ((k, v) :: ps) = Some v) by (simpl; now rewrite keq_refl).
    destruct v as [t|].
    - apply (NR k t). exists s. rewrite PS. auto.
    - apply H4 in F as (m & M & _). unfold waits in W. rewrite S in W. rewrite W in M. contradiction. }
  split; [exact S|]. split.
  - assert (L : forall l n n', (forall x, In x (libs (nos n)) -> fst x = server_name) ->
      run l n = Ok n' -> forall x, In x (libs (nos n')) -> fst x = server_name).
    { clear. induction l as [|a l IH]; simpl run; intros n n' H E; [injection E as <-; auto|].
      destruct (step a n) as [n1|] eqn:E1; [|discriminate]. simpl in E. apply (IH n1 n'); auto. clear IH E.
      assert (CL : forall b m x y, call b m x = Ok y -> nos y = nos x).
      { intros b m x y. unfold call. destruct (srv x); [|discriminate]. destruct (gen _ =? b); [|discriminate].
        destruct (srv_incoming m s) as [[? ?]|]; [|discriminate]. simpl. now intros [= <-]. }
      assert (OT : forall k f x y, on_tport k f x = Ok y -> nos y = nos x).
      { intros k f x y. unfold on_tport. destruct (srv x); [|discriminate].
        destruct (find2 k (procs s)) as [[t|]|]; try discriminate. destruct (f t); [|discriminate]. simpl.
        now intros [= <-]. }
      destruct a as [m| |q|q|q|q i h|q i]; cbn [step] in E1.
      - unfold os_request in E1. destruct (find1 _ _).
        + apply CL in E1. now rewrite E1.
        + injection E1 as <-. exact H.
      - unfold os_next in E1. destruct (delayed (nos n)) as [|[b m] d]; [injection E1 as <-; exact H|].
        apply CL in E1. rewrite E1. exact H.
      - assert (forall r, bind r (fun n1 => bind (the_server n1) (fun s =>
          bind (srv_register q new_tport s) (fun '(s', o) =>
          Ok (mknode (nos n1) (Some s') (made n1) (out n1 ++ o))))) = Ok n1 ->
          exists n2, r = Ok n2 /\ nos n1 = nos n2) as X.
        { intros [n2|] X; [|discriminate]. cbn [bind] in X. destruct (the_server n2); [|discriminate].
          cbn [bind] in X. destruct (srv_register q new_tport a) as [[s' o]|]; [|discriminate].
          cbn [bind] in X. injection X as <-. eauto. }
        apply X in E1 as (n2 & E2 & ->). destruct (find1 _ _); injection E2 as <-; auto.
        cbn [nos os_register libs]. unfold put1. intros x [<-|Hx]; auto.
        apply filter_In in Hx as [Hx _]. auto.
      - destruct (the_server n); [|discriminate]. cbn [bind] in E1.
        destruct (find2 q (procs a)) as [[t|]|]; try discriminate. unfold srv_unregister in E1.
        destruct (del2 q (procs a)); injection E1 as <-; auto. cbn [nos]. unfold os_unregister.
        destruct (_ =? 1)%Z; cbn [libs]; auto. intros x Hx. apply filter_In in Hx as [Hx _]. auto.
      - apply OT in E1. now rewrite E1.
      - apply OT in E1. now rewrite E1.
      - apply OT in E1. now rewrite E1. }
    specialize (L ops node0 n). simpl in L. pose proof (i_none n I S) as F.
    destruct (libs (nos n)) as [|[a b] r] eqn:LB; auto. exfalso.
    assert (a = server_name) by (apply (L (fun x (h : False) => match h with end) E (a, b)); now left).
    subst a. simpl in F. discriminate.
  - split.
    + unfold teardown_ok. now destruct (pend (nos n)).
    + now destruct (delayed (nos n)).
Qed.
(** One message that comes too late keeps the server for ever, or stops the program at the end. *)
Theorem late_message_server_refuted : exists ops n, run ops node0 = Ok n /\ (forall k t, ~ runs k t n) /\
  srv n <> None /\ proper_run ops node0.
Proof.
  exists [Start k0; Start k1; Stop k0; Arrive (to k0 0 1); Stop k1]. eexists. split; [reflexivity|].
  assert (X : forall n, installed n <-> match srv n with None => True | Some s =>
     forall k t, find2 k (procs s) = Some (Some t) -> ~ In None (queues t) end).
  { intros n. unfold installed, runs. destruct (srv n) as [s|]; split; intros H; auto.
    - intros k t Q. apply (H k). eauto.
    - intros k t (s' & [= <-] & Q). eauto.
    - intros k t (s' & S & _). discriminate. }
  split; [|split; [discriminate|]].
  - intros k t (s & [= <-] & Q). simpl in Q. destruct (keq k0 k); discriminate.
  - simpl. split; [intros t (s & S & _); discriminate|].
    intros n1 [= <-]. split; [intros t (s & [= <-] & Q); discriminate|].
    intros n1 [= <-]. split; [split; [eexists; eexists; split; reflexivity|reflexivity]|].
    intros n1 [= <-]. split.
    { apply X. simpl. intros k t. destruct (keq k1 k); [|discriminate]. intros [= <-]. simpl. intuition discriminate. }
    intros n1 [= <-]. split; [split; [eexists; eexists; split; reflexivity|reflexivity]|]. auto.
Qed.
Theorem late_message_abort_refuted : exists ops n, run ops node0 = Ok n /\ (forall k t, ~ runs k t n) /\
  srv n = None /\ teardown_ok n = false.
Proof.
  exists [Start k0; Stop k0; Arrive (to k0 0 1)]. eexists. split; [reflexivity|].
  split; [|split; reflexivity]. intros k t (s & S & _). discriminate.
Qed.

(** C131. The ranks of an application that SimTransport::init takes for its neighbours (sim_transport.cc:
    315-323) are those placed on the node, if all of them started and none ended. *)
Lemma runs_started l : forall n n', inv n -> run l n = Ok n' -> forall k t, runs k t n' ->
  In (Start k) l \/ exists t0, runs k t0 n.
Proof.
  induction l as [|a l IH]; simpl run; intros n n' I E k t R; [injection E as <-; eauto|].
  destruct (step a n) as [n1|] eqn:E1; [|discriminate]. simpl in E.
  destruct (step_out a n n1 I E1) as (o & O1 & O2 & O3 & O4).
  destruct (IH n1 n' (proj1 (step_spec a n n1 I E1)) E k t R) as [H|[t0 H]]; [left; now right|].
  apply O4 in H as [[-> _]|(u & H & _)]; [left; now left|eauto].
Qed.
Lemma runs_kept l : forall n n' k t, inv n -> run l n = Ok n' -> runs k t n -> ~ In (Stop k) l ->
  exists t', runs k t' n'.
Proof.
  induction l as [|a l IH]; simpl run; intros n n' k t I E R NS; [injection E as <-; eauto|].
  destruct (step a n) as [n1|] eqn:E1; [|discriminate]. simpl in E.
  destruct (step_out a n n1 I E1) as (o & O1 & O2 & O3 & O4).
  destruct (O3 k t R) as (t1 & R1 & _); [intros ->; apply NS; now left|].
  apply (IH n1 n' k t1); auto; [eapply step_spec; eauto|]. intros X. apply NS. now right.
Qed.
Lemma started_runs l : forall n n' k, inv n -> run l n = Ok n' -> In (Start k) l -> ~ In (Stop k) l ->
  exists t', runs k t' n'.
Proof.
  induction l as [|a l IH]; simpl run; intros n n' k I E S NS; [contradiction|].
  destruct (step a n) as [n1|] eqn:E1; [|discriminate]. simpl in E.
  assert (I1 : inv n1) by (eapply step_spec; eauto).
  assert (NS' : ~ In (Stop k) l) by (intros X; apply NS; now right).
  destruct S as [->|S]; [|now apply (IH n1 n' k)].
  destruct (start_step k n n1 I E1) as (n2 & s & s' & o2 & S & RG & SO & _ & -> & _).
  destruct (srv_register_spec k s s' o2 SO RG) as (_ & _ & _ & (t & B & _) & _).
  apply (runs_kept l _ n' k t I1); auto. exists s'. auto.
Qed.

Theorem neighbours_partial : forall ops n ap (placed : nat -> Prop),
  run ops node0 = Ok n ->
  (forall m, In m (arrived ops) -> fst (m_key m) = ap -> placed (snd (m_key m))) ->
  (forall r, In (Start (ap, r)) ops <-> placed r) ->
  (forall r, ~ In (Stop (ap, r)) ops) -> (exists r, placed r) ->
  exists s l, srv n = Some s /\ srv_ranks ap s = Some l /\ NoDup l /\ forall r, In r l <-> placed r.
Proof.
  intros ops n ap placed E A St NS [r0 Hr]. assert (I : inv n) by (eapply run_inv; eauto using inv0).
  assert (RR : forall r, placed r -> exists t, runs (ap, r) t n).
  { intros r Pr. apply (started_runs ops node0 n); auto using inv0. now apply St. }
  destruct (RR r0 Hr) as (t0 & s & S & Q0). exists s.
  destruct (i_some n I s S) as (A1 & A2 & A3 & A4 & A5 & [H1 H2 H3 H4]).
  unfold srv_ranks.
  set (f := fun p : key * option tport => fst (fst p) =? ap).
  exists (map (fun p => snd (fst p)) (filter f (procs s))).
  assert (KS : forall r, In r (map (fun p => snd (fst p)) (filter f (procs s))) <-> In (ap, r) (map fst (procs s))).
  { intros r. rewrite !in_map_iff. split.
    - intros ([[a b] v] & <- & Hx). apply filter_In in Hx as [Hx F]. unfold f in F. simpl in F.
      apply Nat.eqb_eq in F. subst a. exists ((ap, b), v). auto.
    - intros ([[a b] v] & [= -> ->] & Hx). exists ((ap, r), v). split; auto. apply filter_In. split; auto.
      unfold f. simpl. apply Nat.eqb_refl. }
  assert (IFF : forall r, In (ap, r) (map fst (procs s)) <-> placed r).
  { intros r. split.
    - intros Hx. destruct (find2 (ap, r) (procs s)) as [[t|]|] eqn:Q.
      + apply St. destruct (runs_started ops node0 n inv0 E (ap, r) t) as [H|(u & y & Y & _)]; auto.
        * exists s. auto.
        * discriminate.
      + apply H4 in Q as (m & M1 & M2). change r with (snd (ap, r)). rewrite <- M2. apply A; [|now rewrite M2].
        pose proof (run_perm ops node0 n inv0 E (m_key m) (m_cq m)) as P. simpl app in P.
        assert (X : In m (content (m_key m) (m_cq m) n)).
        { unfold content, waits. rewrite S. apply in_or_app. right. apply in_or_app. right. apply in_or_app. left.
          apply filter_In. split; auto. apply aims_spec. auto. }
        apply (Permutation_in _ (Permutation_sym P)) in X. now apply filter_In in X.
      + now apply find2_none in Q.
    - intros Pr. destruct (RR r Pr) as (t & x & X & Q). rewrite S in X. injection X as <-.
      eapply find2_in; eauto. }
  split; [exact S|]. split; [|split].
  - change (match filter f (procs s) with [] => None | l => Some (map (fun p => snd (fst p)) l) end =
            Some (map (fun p => snd (fst p)) (filter f (procs s)))).
    destruct (filter f (procs s)) as [|p ps] eqn:FF; [|reflexivity].
    exfalso. rewrite <- FF in KS. assert (In r0 (map (fun p => snd (fst p)) (filter f (procs s)))) by (apply KS, IFF, Hr).
    rewrite FF in H. contradiction.
  - clear - H1 f. induction (procs s) as [|[[a b] v] l IH]; simpl; [constructor|]. inversion H1; subst.
    unfold f at 1. simpl. destruct (Nat.eqb_spec a ap); [|now apply IH]. subst. simpl. constructor; [|now apply IH].
    rewrite in_map_iff. intros ([[c d] w] & Y & Hx). simpl in Y. subst d.
    apply filter_In in Hx as [Hx F]. unfold f in F. simpl in F. apply Nat.eqb_eq in F. subst c.
    apply H2. apply in_map_iff. exists ((ap, b), w). auto.
  - intros r. now rewrite KS, IFF.
Qed.
(** A late message puts a process that ended back among them. *)
Theorem neighbours_refuted : exists ops n s l r, run ops node0 = Ok n /\ srv n = Some s /\
  srv_ranks 7 s = Some l /\ In r l /\ forall t, ~ runs (7, r) t n.
Proof.
  exists [Start k0; Start k1; Stop k0; Arrive (to k0 0 1)]. eexists _, _, _, 0.
  split; [reflexivity|]. split; [reflexivity|]. split; [reflexivity|]. split; [now left|].
  intros t (s & [= <-] & Q). discriminate.
Qed.

(** C132. Libraries of one operating system. *)
Section Libs.
  Context {R : Type}.
  Implicit Types (o : os R) (l : list (lop R)).
  Definition asked l : list R := flat_map (fun a => match a with Ask _ r => [r] | _ => [] end) l.

  Lemma perm_split A (f : A -> bool) (x : list A) :
    Permutation x (filter f x ++ filter (fun a => negb (f a)) x).
  Proof.
    induction x as [|a x IH]; simpl; auto. destruct (f a); simpl; [now constructor|].
    apply Permutation_cons_app. exact IH.
  Qed.

  (** Every request is given to a library once or still kept. *)
Theorem requests_once : forall l o c, lrun l os0 = (o, c) ->
    Permutation (asked l) (map snd c ++ map snd (delayed o) ++ map snd (pend o)).
  Proof.
    assert (G : forall l o0 o c, lrun l o0 = (o, c) ->
      Permutation (map snd (delayed o0) ++ map snd (pend o0) ++ asked l)
                  (map snd c ++ map snd (delayed o) ++ map snd (pend o))).
    { induction l as [|a l IH]; simpl; intros o0 o c E.
      - injection E as <- <-. simpl. now rewrite app_nil_r.
      - destruct (lstep a o0) as [o1 c1] eqn:E1. destruct (lrun l o1) as [o2 c2] eqn:E2. injection E as <- <-.
        apply IH in E2. rewrite map_app, <- app_assoc, <- E2. clear E2 IH.
        destruct a as [b n|b n|n r|]; simpl in E1.
        + injection E1 as <- <-. simpl. rewrite map_app, map_map. simpl. rewrite <- !app_assoc.
          apply Permutation_app_head. rewrite app_assoc. apply Permutation_app_tail.
          rewrite <- map_app. apply Permutation_map. apply perm_split.
        + injection E1 as <- <-. unfold os_unregister. destruct (_ =? 1)%Z; reflexivity.
        + unfold os_request in E1. destruct (find1 n (libs o0)); injection E1 as <- <-; simpl.
          * rewrite app_assoc. apply Permutation_sym, Permutation_cons_app. now rewrite <- app_assoc.
          * rewrite map_app, <- app_assoc. reflexivity.
        + unfold os_next in E1. destruct (delayed o0) as [|[b r] d] eqn:D; injection E1 as <- <-; simpl;
            rewrite ?D; reflexivity. }
    intros l o c E. apply G in E. exact E.
  Qed.

  Lemma alive_app l a live : alive (l ++ [a]) live = alive [a] (alive l live).
  Proof. revert live. induction l as [|[| | |] l IH]; intros live; simpl; auto; apply IH. Qed.

  (** With different names, exactly the existing libraries are found under their names. *)
Theorem library_by_name_partial : forall l o c n b, objects true l [] -> lrun l os0 = (o, c) ->
    find1 n (libs o) = Some b <-> In (b, n) (alive l []).
  Proof.
    assert (G : forall l o0 o c live, lrun l o0 = (o, c) -> objects true l live ->
      NoDup (map fst live) -> NoDup (map snd live) ->
      (forall b, find1 b (refs o0) = if existsb (fun p => fst p =? b) live then Some 1%Z else None) ->
      (forall n b, find1 n (libs o0) = Some b <-> In (b, n) live) ->
      forall n b, find1 n (libs o) = Some b <-> In (b, n) (alive l live)).
    { induction l as [|a l IH]; intros o0 o c live E O N1 N2 RF H; [injection E as <- <-; exact H|].
      cbn [lrun] in E. destruct (lstep a o0) as [o1 c1] eqn:E1. destruct (lrun l o1) as [o2 c2] eqn:E2.
      injection E as <- <-.
      destruct a as [b n|b n|n r|]; cbn [lstep objects alive] in *.
      - injection E1 as <- <-. destruct O as (O1 & O2 & O3). specialize (O2 eq_refl).
        assert (X : existsb (fun p => fst p =? b) live = false).
        { destruct (existsb _ live) eqn:X; auto. apply existsb_exists in X as (y & Y1 & Y2).
          apply Nat.eqb_eq in Y2. subst b. exfalso. apply O1. now apply in_map. }
        eapply IH; [exact E2|exact O3|simpl; now constructor|simpl; now constructor| |].
        + intros b'. unfold os_register. cbn [refs]. rewrite RF, X.
          destruct (Nat.eq_dec b' b) as [->|NE].
          * rewrite find1_put_same. simpl. now rewrite Nat.eqb_refl.
          * rewrite find1_put_other by auto. simpl existsb. destruct (Nat.eqb_spec b b'); [congruence|]. apply RF.
        + intros n' b'. unfold os_register. cbn [libs]. destruct (Nat.eq_dec n' n) as [->|NE].
          * rewrite find1_put_same. simpl. split; [intros [= <-]; auto|].
            intros [[= <-]|Y]; auto. exfalso. apply O2. now apply (in_map snd) in Y.
          * rewrite find1_put_other by auto. rewrite H. simpl. intuition congruence.
      - injection E1 as <- <-. destruct O as [O1 O2].
        assert (X : existsb (fun p => fst p =? b) live = true).
        { apply existsb_exists. exists (b, n). split; auto. simpl. apply Nat.eqb_refl. }
        assert (U : forall n', In (b, n') live -> n' = n).
        { intros n' Y. clear - N1 O1 Y. induction live as [|[p q] live IH]; [contradiction|].
          simpl in N1. inversion N1; subst. destruct O1 as [[= -> ->]|O1], Y as [[= ->]|Y]; auto.
          - exfalso. apply H1. now apply (in_map fst) in Y.
          - exfalso. apply H1. subst. now apply (in_map fst) in O1. }
        assert (U2 : forall b', In (b', n) live -> b' = b).
        { intros b' Y. apply H in Y. apply H in O1. congruence. }
        eapply IH; [exact E2|exact O2| | | |].
        + clear - N1. induction live as [|[p q] live IH]; simpl; [constructor|]. inversion N1; subst.
          destruct (Nat.eqb_spec p b); simpl; auto. constructor; auto. intros Y. apply H1.
          apply in_map_iff in Y as (y & Y1 & Y2). apply filter_In in Y2 as [Y2 _]. subst p. now apply in_map.
        + clear - N2. induction live as [|[p q] live IH]; simpl; [constructor|]. inversion N2; subst.
          destruct (Nat.eqb_spec p b); simpl; auto. constructor; auto. intros Y. apply H1.
          apply in_map_iff in Y as (y & Y1 & Y2). apply filter_In in Y2 as [Y2 _]. subst q. now apply in_map.
        + intros b'. unfold os_unregister. rewrite RF, X. simpl Z.eqb. cbn [refs].
          destruct (Nat.eq_dec b' b) as [->|NE].
          * rewrite find1_del_same.
            destruct (existsb (fun p => fst p =? b) (filter (fun p => negb (fst p =? b)) live)) eqn:Y; auto.
            apply existsb_exists in Y as (y & Y1 & Y2). apply filter_In in Y1 as [_ Y1].
            rewrite Y2 in Y1. discriminate.
          * rewrite find1_del_other by auto. rewrite RF. f_equal.
            assert (existsb (fun p => fst p =? b') live =
              existsb (fun p => fst p =? b') (filter (fun p => negb (fst p =? b)) live)) as ->; auto.
            clear - NE. induction live as [|[p q] live IH]; simpl; auto. rewrite IH.
            destruct (Nat.eqb_spec p b); simpl; auto. destruct (Nat.eqb_spec p b'); simpl; auto. congruence.
        + intros n' b'. unfold os_unregister. rewrite RF, X. simpl Z.eqb. cbn [libs].
          rewrite filter_In. cbn [fst]. destruct (Nat.eq_dec n' n) as [->|NE].
          * rewrite find1_del_same. split; [discriminate|]. intros [Y1 Y2]. apply U2 in Y1. subst.
            now rewrite Nat.eqb_refl in Y2.
          * rewrite find1_del_other by auto. rewrite H. split; [|tauto]. intros Y. split; auto.
            destruct (Nat.eqb_spec b' b); auto. subst. now apply U in Y.
      - eapply IH; eauto; unfold os_request in E1; destruct (find1 n (libs o0)); injection E1 as <- <-; auto.
      - eapply IH; eauto; unfold os_next in E1; destruct (delayed o0); injection E1 as <- <-; auto. }
    intros l o c n b O E. apply (G l os0 o c [] E O); simpl; try constructor; auto; try discriminate; tauto.
  Qed.
End Libs.
(** When an older library of the same name is destroyed, the newer one can no longer be found, and
    requests for it are kept until the operating system aborts. *)
Theorem library_by_name_refuted : exists (l : list (lop nat)) o c n b, objects false l [] /\
  lrun l os0 = (o, c) /\ alive l [] = [(b, n)] /\ find1 n (libs o) = None /\ pend o = [(n, 4)] /\ c = [].
Proof.
  exists [Make 1 5; Make 2 5; Destroy 1 5; Ask 5 4]. eexists _, _, 5, 2. repeat split; simpl; auto; try discriminate;
    intuition discriminate.
Qed.
(** Every call of a library is for a request made under a name this library had. *)
Theorem library_calls_right : forall R (l : list (lop R)) o c b r, lrun l os0 = (o, c) -> In (b, r) c ->
  exists n, In (Make b n) l /\ In (Ask n r) l.
Proof.
  intros R ops.
  assert (G : forall l o0 o c, incl l ops ->
    (forall n b, find1 n (libs o0) = Some b -> In (Make b n) ops) ->
    (forall n r, In (n, r) (pend o0) -> In (Ask n r) ops) ->
    (forall b r, In (b, r) (delayed o0) -> exists n, In (Make b n) ops /\ In (Ask n r) ops) ->
    lrun l o0 = (o, c) -> forall b r, In (b, r) c -> exists n, In (Make b n) ops /\ In (Ask n r) ops).
  { induction l as [|a l IH]; intros o0 o c L H1 H2 H3 E; [injection E as <- <-; intros ? ? []|].
    cbn [lrun] in E. destruct (lstep a o0) as [o1 c1] eqn:E1. destruct (lrun l o1) as [o2 c2] eqn:E2.
    injection E as <- <-. assert (La : In a ops) by (apply L; now left).
    assert (L' : incl l ops) by (intros x Hx; apply L; now right).
    assert (X : (forall n b, find1 n (libs o1) = Some b -> In (Make b n) ops) /\
      (forall n r, In (n, r) (pend o1) -> In (Ask n r) ops) /\
      (forall b r, In (b, r) (delayed o1) -> exists n, In (Make b n) ops /\ In (Ask n r) ops) /\
      (forall b r, In (b, r) c1 -> exists n, In (Make b n) ops /\ In (Ask n r) ops)).
    { destruct a as [b n|b n|n r|]; cbn [lstep] in E1.
      - injection E1 as <- <-. unfold os_register. cbn [libs pend delayed]. split; [|split; [|split]].
        + intros n' b'. destruct (Nat.eq_dec n' n) as [->|NE].
          * rewrite find1_put_same. intros [= <-]. auto.
          * rewrite find1_put_other by auto. auto.
        + intros n' r Hx. apply filter_In in Hx as [Hx _]. auto.
        + intros b' r Hx. apply in_app_iff in Hx as [Hx|Hx]; auto.
          apply in_map_iff in Hx as ([n' r'] & [= <- <-] & Hx). apply filter_In in Hx as [Hx Y].
          apply Nat.eqb_eq in Y. simpl in Y. subst n'. exists n. auto.
        + intros ? ? [].
      - injection E1 as <- <-. unfold os_unregister. destruct (_ =? 1)%Z; cbn [libs pend delayed]; (split; [|split; [|split]]); auto;
          try (now intros ? ? []; fail).
        intros n' b'. destruct (Nat.eq_dec n' n) as [->|NE]; [rewrite find1_del_same; discriminate|].
        rewrite find1_del_other by auto. auto.
      - unfold os_request in E1. destruct (find1 n (libs o0)) as [b|] eqn:F; injection E1 as <- <-; cbn [libs pend delayed];
          (split; [|split; [|split]]); auto.
        + intros b' r' [[= <- <-]|[]]. exists n. auto.
        + intros n' r' Hx. apply in_app_iff in Hx as [Hx|[[= <- <-]|[]]]; auto.
        + intros ? ? [].
      - unfold os_next in E1. destruct (delayed o0) as [|[b r] d] eqn:D; injection E1 as <- <-; cbn [libs pend delayed];
          (split; [|split; [|split]]); auto.
        + intros b' r' Hx. rewrite D in Hx. contradiction.
        + intros b' r' Hx. apply H3. now right.
        + intros b' r' [[= <- <-]|[]]. apply H3. now left. }
    destruct X as (X1 & X2 & X3 & X4). intros b r Hx. apply in_app_iff in Hx as [Hx|Hx]; [auto|].
    eapply (IH o1); eauto. }
  intros o c b r E. apply (G ops os0 o c (incl_refl _)); simpl; auto; try discriminate; tauto.
Qed.

(** *** Examples *)
(** Two early messages, a process, its queue, and a message for each queue. *)
Example ex_run : exists n,
  run [Arrive (to k0 0 1); Arrive (to k1 0 2); Arrive (to k0 0 3); Start k0; RunNext; RunNext; RunNext;
       AllocId k0; AllocCq k0 1 9; Arrive (to k0 1 4); Arrive (mkmsg k0 (Some 0) None true 5); Start k1] node0 = Ok n /\
  map (fun '(k, x, m) => (k, x, m_data m)) (out n) =
    [(k0, Handed 0, 1); (k0, Handed 0, 3); (k0, Handed 9, 4); (k0, Nulled, 5); (k1, Handed 0, 2)].
Proof. eexists. split; [vm_compute; reflexivity|reflexivity]. Qed.
(** The hypotheses of the theorems on order and on proper use hold for such a run. *)
Example ex_quiet : quiet_run [Arrive (to k0 0 1); Start k0; RunNext; Arrive (to k0 0 3)] node0.
Proof. simpl. split; auto. intros n [= <-]. split; auto. intros n [= <-]. split; auto. intros n [= <-]. auto. Qed.
Example ex_neighbours : exists n s, run [Arrive (to k1 0 2); Start k0; RunNext; Start k1] node0 = Ok n /\
  srv n = Some s /\ srv_ranks 7 s = Some [1; 0].
Proof. eexists _, _. repeat split. Qed.
Example ex_clean : exists n, run [Start k0; Start k1; Arrive (to k0 0 1); Stop k0; Stop k1] node0 = Ok n /\
  srv n = None /\ ended n = [to k0 0 1].
Proof. eexists. repeat split. Qed.
Example ex_numbers : snd (reserve_run [Reserve; Reserve; Release 1; Reserve; Reserve] new_tport []) = [3; 1; 2].
Proof. reflexivity. Qed.
Example ex_libs : lrun [Ask 5 10; Ask 6 11; Ask 5 12; Make 1 5; Ask 5 13; Next; Next; Destroy 1 5; Ask 5 14] os0 =
  (mkos [] [] [(6, 11); (5, 14)] [], [(1, 13); (1, 10); (1, 12)]).
Proof. reflexivity. Qed.

Print Assumptions early_messages_once.
Print Assumptions messages_reach_their_queue.
Print Assumptions proper_never_fails.
Print Assumptions arrival_order_partial.
Print Assumptions arrival_order_refuted.
Print Assumptions early_queue_refuted.
Print Assumptions held_never_handed.
Print Assumptions reserved_queue_refuted.
Print Assumptions stale_queue_refuted.
Print Assumptions queue_numbers_distinct.
Print Assumptions clean_end_partial.
Print Assumptions late_message_server_refuted.
Print Assumptions late_message_abort_refuted.
Print Assumptions neighbours_partial.
Print Assumptions neighbours_refuted.
Print Assumptions requests_once.
Print Assumptions library_by_name_partial.
Print Assumptions library_by_name_refuted.
Print Assumptions library_calls_right.
