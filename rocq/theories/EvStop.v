From Coq Require Import List NArith Bool Arith Lia Permutation Sorted.
From Coq Require Import ZifyBool ZifyNat ZifyN.
From Verif Require Import EvModel EvSpec EvProof EvInv EvSync EvSerial.
Import ListNotations.
Local Open Scope N_scope.

Section Stop.
Context {S P : Type}.
Variable M : machine S P.
Notation event := (event P).
Notation wstate := (wstate S P).
Notation own0 := (fun _ : N => O).
Variable t : N.

Definition K : key := Key t 4294967295 0.
Definition lowq (q : list event) : list event := filter (fun e => keylt (e_key e) K) q.

Lemma keylt_trans a b c : keylt a b = true -> keylt b c = true -> keylt a c = true.
Proof. rewrite !keylt_earlier. apply earlier_trans. Qed.

Lemma qinsert_keeps (e x : event) q : In x q -> In x (qinsert e q).
Proof.
  induction q as [|y r IH]; simpl; [contradiction|]. intros H.
  destruct (keylt (e_key e) (e_key y)); [simpl; tauto|].
  destruct (keylt (e_key y) (e_key e)); simpl; tauto.
Qed.

Lemma low_nil (q : list event) x r : q = x :: r -> qsorted q -> keylt (e_key x) K = false -> lowq q = [].
Proof.
  intros -> Hs Hx. unfold lowq. simpl. rewrite Hx. inversion Hs as [|? ? _ Ha]; subst.
  rewrite Forall_forall in Ha. 
  induction r as [|y r IH]; simpl; auto.
  destruct (keylt (e_key y) K) eqn:E.
  - exfalso. assert (keylt (e_key x) (e_key y) = true) by (apply keylt_earlier; apply Ha; simpl; auto).
    rewrite (keylt_trans _ _ _ H E) in Hx. discriminate.
  - apply IH.
    + inversion Hs as [|? ? Hr Hf]; subst. inversion Hr; subst. inversion Hf; subst. constructor; auto.
    + intros z Hz. apply Ha. simpl; auto.
Qed.

Lemma low_insert (e : event) q : qsorted q ->
  lowq (qinsert e q) = if keylt (e_key e) K then qinsert e (lowq q) else lowq q.
Proof.
  intros Hs. induction q as [|y r IH]; simpl.
  - destruct (keylt (e_key e) K); auto.
  - inversion Hs as [|? ? Hr Hy]; subst. specialize (IH Hr). unfold lowq in *.
    destruct (keylt (e_key e) (e_key y)) eqn:E1.
    + simpl. destruct (keylt (e_key y) K) eqn:Ey.
      * rewrite (keylt_trans _ _ _ E1 Ey). simpl. now rewrite E1.
      * pose proof (low_nil (y :: r) y r eq_refl Hs Ey) as Hn. unfold lowq in Hn. simpl in Hn. rewrite Ey in Hn.
        rewrite Hn. destruct (keylt (e_key e) K); auto.
    + destruct (keylt (e_key y) (e_key e)) eqn:E2.
      * simpl. rewrite IH. destruct (keylt (e_key y) K) eqn:Ey; destruct (keylt (e_key e) K) eqn:Ee; auto.
        simpl. now rewrite E1, E2.
      * assert (Hk : e_key e = e_key y) by now apply keylt_false_eq.
        simpl. rewrite <- Hk. destruct (keylt (e_key e) K); auto.
        simpl. rewrite <- Hk, keylt_irrefl. reflexivity.
Qed.

Record T (w w' : wstate) : Prop := {
  t_s : qsorted (w_queue w);
  t_s' : qsorted (w_queue w');
  t_stop : In (stop_event t) (w_queue w);
  t_low : lowq (w_queue w) = lowq (w_queue w');
  t_comp : w_comp w = w_comp w';
  t_seq : w_seq w = w_seq w';
  t_log : w_log w = w_log w';
  t_now : w_now w = w_now w'
}.

Lemma T_send w w' s : T w w' -> T (do_send M own0 w s) (do_send M own0 w' s).
Proof.
  intros [H1 H2 H3 H4 H5 H6 H7 H8]. unfold do_send. rewrite remote_false. simpl. constructor; simpl; auto.
  - now apply qinsert_sorted.
  - now apply qinsert_sorted.
  - now apply qinsert_keeps.
  - rewrite !low_insert by auto. rewrite H8, H6, H4. reflexivity.
  - now rewrite H6.
Qed.

Lemma T_sends ss : forall w w', T w w' -> T (do_sends M own0 w ss) (do_sends M own0 w' ss).
Proof. induction ss as [|s ss IH]; intros w w' H; simpl; auto. apply IH. now apply T_send. Qed.

Lemma T_loop comp0 boot fuel : forall w w' wf,
  T w w' -> SInv M comp0 boot w' -> loop M own0 fuel None w = Some wf ->
  exists w1, SInv M comp0 boot w1 /\ lowq (w_queue w1) = [] /\ w_log wf = stop_event t :: w_log w1 /\
    w_comp wf = w_comp w1 /\ w_stopped wf = true /\ w_queue wf = [] /\
    (forall x, In x (w_log w1) -> In x (w_log w') \/ keylt (e_key x) K = true).
Proof.
  induction fuel as [|f IH]; intros w w' wf HT HI Hl; [discriminate|]. simpl in Hl.
  destruct HT as [H1 H2 H3 H4 H5 H6 H7 H8].
  destruct (w_queue w) as [|e r] eqn:Hq; [contradiction|].
  unfold wstep in Hl. rewrite Hq in Hl. simpl in Hl.
  destruct (sorted_min _ _ _ H1 H3) as [He|He].
  - (* the stop event is executed *)
    subst e. unfold exec in Hl. simpl in Hl. destruct f as [|f]; [discriminate|]. simpl in Hl.
    unfold wstep in Hl. simpl in Hl. injection Hl as <-. simpl.
    exists w'. split; auto. split.
    { rewrite <- H4. eapply low_nil; [reflexivity|exact H1|]. apply keylt_irrefl. }
    rewrite H7, H5. auto 10.
  - assert (Hek : keylt (e_key e) K = true) by (apply keylt_earlier; exact He).
    assert (Hq' : exists r', w_queue w' = e :: r' /\ lowq r = lowq r').
    { unfold lowq in H4. simpl in H4. rewrite Hek in H4.
      destruct (w_queue w') as [|x r'] eqn:Eq'; [discriminate|]. simpl in H4.
      destruct (keylt (e_key x) K) eqn:Ex.
      - injection H4 as <- H4. eauto.
      - pose proof (low_nil _ _ _ eq_refl H2 Ex) as Hn. unfold lowq in Hn. simpl in Hn. rewrite Ex in Hn.
        rewrite Hn in H4. discriminate. }
    destruct Hq' as (r'&Hq'&Hr').
    assert (Hst : wstep M own0 None w' = Some (exec M own0 w' e r')) by (unfold wstep; now rewrite Hq').
    pose proof (SInv_step M comp0 boot w' _ HI Hst) as HI'.
    destruct HI as (HP&_). destruct (pi_q _ _ _ _ _ _ HP 0%nat e) as (_&_&_&_&Hbody);
      [simpl; auto|rewrite Hq'; simpl; auto|].
    assert (HT' : T (exec M own0 w e r) (exec M own0 w' e r')).
    { unfold exec. destruct (e_body e) as [p|]; [|congruence]. rewrite H5.
      destruct (m_handler M _ _ _ _ _) as [st ss]. apply T_sends. constructor; simpl; auto.
      - now inversion H1. - rewrite Hq' in H2. now inversion H2.
      - destruct H3 as [H3|H3]; auto. subst e. unfold elt in He. exfalso. eapply earlier_irrefl; eauto.
      - now rewrite H7. }
    destruct (IH _ _ _ HT' HI' Hl) as (w1&A&B&C&D&E&F&G). exists w1. repeat (split; auto).
    intros x Hx. apply G in Hx as [Hx|Hx]; auto.
    unfold exec in Hx. destruct (e_body e) as [p|]; [|congruence].
    destruct (m_handler M _ _ _ _ _) as [st ss].
    assert (Hlog : forall ss (s : wstate), w_log (do_sends M own0 s ss) = w_log s).
    { clear. induction ss as [|y ss IH]; intros s; simpl; auto. rewrite IH. reflexivity. }
    rewrite Hlog in Hx. simpl in Hx. destruct Hx as [<-|Hx]; auto.
Qed.

(** A run with a termination time: the executed events are exactly the caused events that
    precede the stop, in order, each once; then the stop. *)
Theorem serial_until fuel comp0 boot w :
  serial_run_until M fuel comp0 boot t = Some w ->
  exists hist, history w = hist ++ [stop_event t] /\ w_stopped w = true /\ NoDup hist /\
    ordered M comp0 boot hist /\
    (forall x, In x hist <-> In x (caused M comp0 boot hist) /\ earlier (e_key x) K).
Proof.
  intros H.
  change (loop M own0 fuel None (forget_ipc (do_sends M own0 (schedule_stop t (init_w comp0)) boot)) = Some w) in H.
  assert (HT : T (forget_ipc (do_sends M own0 (schedule_stop t (init_w comp0)) boot))
                 (forget_ipc (do_sends M own0 (init_w comp0) boot))).
  { assert (HT0 : T (do_sends M own0 (schedule_stop t (init_w comp0)) boot) (do_sends M own0 (init_w comp0) boot)).
    { apply T_sends. constructor; simpl; auto; try (repeat constructor; fail).
      unfold lowq. simpl. fold K. now rewrite keylt_irrefl. }
    destruct HT0. constructor; auto. }
  destruct (T_loop comp0 boot fuel _ _ _ HT (SInv_init M comp0 boot) H) as (w1&HI&Hlow&Hlog&_&Hst&_&Hk).
  exists (rev (w_log w1)). unfold history. rewrite Hlog. simpl. split; auto. split; auto.
  destruct HI as (HP&(es&Hf&Hp)&Hn&_&Ho&_).
  split; [|split; [exact Ho|]].
  - clear -Hn. revert Hn. generalize (rev (w_log w1)). intros l Hn. induction l as [|a l IH]; [constructor|].
    simpl in Hn. inversion Hn; subst. constructor; auto. rewrite in_app_iff in *. tauto.
  - intros x. rewrite <- caused_fold, Hf. simpl. split.
    + intros Hx. split.
      * eapply Permutation_in; [symmetry; exact Hp|]. rewrite in_app_iff. auto.
      * apply in_rev in Hx. apply Hk in Hx as [Hx|Hx]; [|now apply keylt_earlier].
        simpl in Hx. exfalso.
        assert (Hl0 : forall ss (s : wstate), w_log (do_sends M own0 s ss) = w_log s).
        { clear. induction ss as [|y ss IH]; intros s; simpl; auto. rewrite IH. reflexivity. }
        rewrite Hl0 in Hx. contradiction.
    + intros [Hx Hlt]. eapply Permutation_in in Hx; [|exact Hp]. apply in_app_iff in Hx as [Hx|Hx]; auto.
      exfalso. apply keylt_earlier in Hlt.
      assert (In x (lowq (w_queue w1))) by (apply filter_In; auto). rewrite Hlow in H0. contradiction.
Qed.
End Stop.
