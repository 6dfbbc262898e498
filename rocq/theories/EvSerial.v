From Coq Require Import List NArith Bool Arith Lia Permutation Sorted.
From Coq Require Import ZifyBool ZifyNat ZifyN.
From Verif Require Import EvModel EvSpec EvProof EvInv EvSync.
Import ListNotations.
Local Open Scope N_scope.

Section Replay.
Context {S P : Type}.
Variable M : machine S P.
Notation event := (event P).

(** Left-to-right formulation of [replay]. *)
Definition rstep (a : (N -> S) * (N -> N) * list event) (e : event)
  : (N -> S) * (N -> N) * list event :=
  let '(comp, seq, es) := a in
  match e_body e with
  | None => a
  | Some p =>
      let c := m_dst M (e_link e) in
      let '(s', ss) := m_handler M c (comp c) (e_time e) (e_link e) p in
      let '(seq', es') := emit M (e_time e) seq ss in
      (upd comp c s', seq', es ++ es')
  end.

Lemma replay_fold hist : forall comp seq acc,
  exists seq', fold_left rstep hist (comp, seq, acc) =
    (fst (replay M comp seq hist), seq', acc ++ snd (replay M comp seq hist)).
Proof.
  induction hist as [|e r IH]; intros comp seq acc; simpl.
  - exists seq. now rewrite app_nil_r.
  - destruct (e_body e) as [p|]; [|apply IH].
    destruct (m_handler M (m_dst M (e_link e)) (comp (m_dst M (e_link e))) (e_time e) (e_link e) p) as [s' ss].
    destruct (emit M (e_time e) seq ss) as [seq' es'].
    destruct (IH (upd comp (m_dst M (e_link e)) s') seq' (acc ++ es')) as [seq2 H2].
    exists seq2. rewrite H2. unfold upd.
    destruct (replay M _ seq' r) as [c2 es2]. simpl. now rewrite app_assoc.
Qed.

Definition rinit (comp0 : N -> S) (boot : list (send P)) :=
  (comp0, fst (emit M 0 (fun _ => 0) boot), snd (emit M 0 (fun _ => 0) boot)).

Lemma caused_fold comp0 boot hist :
  snd (fold_left rstep hist (rinit comp0 boot)) = caused M comp0 boot hist.
Proof.
  unfold rinit, caused. destruct (emit M 0 (fun _ => 0) boot) as [seq es]. simpl.
  destruct (replay_fold hist comp0 seq es) as [seq' ->]. reflexivity.
Qed.

Lemma caused_snoc_incl comp0 boot hist e x :
  In x (caused M comp0 boot hist) -> In x (caused M comp0 boot (hist ++ [e])).
Proof.
  rewrite <- !caused_fold, fold_left_app. simpl.
  destruct (fold_left rstep hist (rinit comp0 boot)) as [[c s] es]. simpl. intros H.
  destruct (e_body e) as [p|]; auto.
  destruct (m_handler M (m_dst M (e_link e)) (c (m_dst M (e_link e))) (e_time e) (e_link e) p) as [s' ss].
  destruct (emit M (e_time e) s ss). simpl. rewrite in_app_iff. auto.
Qed.

(** The specification determines the history. *)
Lemma ordered_prefix comp0 boot a b : ordered M comp0 boot (a ++ b) -> ordered M comp0 boot a.
Proof.
  intros H h1 e h2 ->. apply (H h1 e (h2 ++ b)). now rewrite <- app_assoc.
Qed.

Lemma ordered_unique comp0 boot h h' :
  ordered M comp0 boot h -> complete M comp0 boot h ->
  ordered M comp0 boot h' -> complete M comp0 boot h' -> h = h'.
Proof.
  intros Ho [Hn Hc] Ho' [Hn' Hc'].
  assert (Hpre : forall k, (k <= length h)%nat -> firstn k h = firstn k h' /\ (k <= length h')%nat).
  { induction k as [|k IH]; intros Hk; [simpl; split; [auto|lia]|].
    destruct (IH ltac:(lia)) as [Hf Hl].
    destruct (skipn k h) as [|e r] eqn:Es.
    { exfalso. assert (Hz : length (skipn k h) = 0%nat) by now rewrite Es. rewrite skipn_length in Hz. lia. }
    assert (Hh : h = firstn k h ++ e :: r) by (rewrite <- Es; symmetry; apply firstn_skipn).
    destruct (Ho _ _ _ Hh) as (H1&H2&H3).
    destruct (skipn k h') as [|e' r'] eqn:Es'.
    { exfalso. assert (Hh' : h' = firstn k h) by (rewrite Hf, <- (firstn_skipn k h') at 1; rewrite Es'; now rewrite app_nil_r).
      apply H2. rewrite <- Hh'. apply Hc'. now rewrite Hh'. }
    assert (Hh' : h' = firstn k h ++ e' :: r') by (rewrite Hf, <- Es'; symmetry; apply firstn_skipn).
    destruct (Ho' _ _ _ Hh') as (H1'&H2'&H3').
    assert (e = e').
    { destruct (H3 e' H1') as [?|[?|He]]; [contradiction|auto|].
      destruct (H3' e H1) as [?|[?|He']]; [contradiction|auto|].
      exfalso. eapply earlier_irrefl, earlier_trans; eauto. }
    subst e'.
    assert (Hlen : length (firstn k h) = k) by (rewrite firstn_length; lia).
    split.
    - rewrite Hh. rewrite Hh'.
      rewrite !firstn_app, !Hlen. replace (Datatypes.S k - k)%nat with 1%nat by lia.
      rewrite !firstn_all2 by lia. reflexivity.
    - assert (Hz : length h' = length (firstn k h ++ e :: r')) by now rewrite <- Hh'.
      rewrite app_length in Hz. simpl in Hz. lia. }
  destruct (Hpre (length h) (le_n _)) as [Hf Hl].
  rewrite firstn_all in Hf.
  destruct (skipn (length h) h') as [|e r] eqn:Es.
  - rewrite Hf at 1. rewrite <- (firstn_skipn (length h) h') at 2. rewrite Es. now rewrite app_nil_r.
  - exfalso. assert (Hh' : h' = h ++ e :: r) by (rewrite Hf, <- Es at 1; symmetry; apply firstn_skipn).
    destruct (Ho' _ _ _ Hh') as (H1&H2&_). apply H2. now apply Hc.
Qed.
End Replay.

Section Serial.
Context {S P : Type}.
Variable M : machine S P.
Hypothesis Hlinks : own_links M.
Notation event := (event P).
Notation wstate := (wstate S P).

Let own : N -> nat := fun _ => O.
Lemma own1 : forall c, (own c < 1)%nat.
Proof. unfold own; intros; lia. Qed.

Notation PI := (PInv M own 1 0 None).

Lemma remote_false l : remote M own l = false.
Proof. reflexivity. Qed.

Lemma look0 : forall l t d, remote M own l = true -> 0 <= t -> before (t + d + m_lat M l) None = false.
Proof. intros l t d H. discriminate. Qed.

Lemma const_sys (s s' : wstate) (w : nat) : (w < 1)%nat -> EvSpec.sysupd (fun _ => s) 0 s' w = (fun _ => s') w.
Proof. intros. assert (w = 0)%nat by lia. subst. reflexivity. Qed.

Lemma do_sends_serial ss : forall w : wstate, PI (fun _ => w) ->
  PI (fun _ => do_sends M own w ss) /\
  w_seq (do_sends M own w ss) = fst (emit M (w_now w) (w_seq w) ss) /\
  Permutation (w_queue (do_sends M own w ss)) (w_queue w ++ snd (emit M (w_now w) (w_seq w) ss)) /\
  w_comp (do_sends M own w ss) = w_comp w /\ w_log (do_sends M own w ss) = w_log w /\
  w_now (do_sends M own w ss) = w_now w.
Proof.
  induction ss as [|s ss IH]; intros w HI; simpl.
  - rewrite app_nil_r. auto 10.
  - destruct (do_send_PInv M own 1 own1 0 None look0 (fun _ => w) 0 s ltac:(lia) HI eq_refl (N.le_0_l _)) as [HI1 Hnow].
    eapply PInv_ext in HI1; [|exact own1|intros x Hx; apply const_sys; exact Hx].
    destruct (IH _ HI1) as (H1&H2&H3&H4&H5&H6).
    assert (Hlost : w_lost (do_send M own w s) = false) by (apply (pi_flags _ _ _ _ _ _ HI1 0%nat); lia).
    unfold do_send in *. rewrite remote_false in *. simpl in *.
    destruct (emit M (w_now w) (fun x => if x =? s_link s then w_seq w (s_link s) + 1 else w_seq w x) ss) as [sq es] eqn:Ee.
    assert (Ee' : emit M (w_now w) (upd (w_seq w) (s_link s) (w_seq w (s_link s) + 1)) ss = (sq, es)) by exact Ee.
    rewrite Ee' in H2, H3. simpl in *.
    split; [exact H1|]. split; [exact H2|]. split; [|auto].
    apply orb_false_iff in Hlost as [_ Hc]. etransitivity; [exact H3|].
    rewrite (qinsert_perm _ _ Hc). simpl. apply Permutation_middle.
Qed.

Definition SInv comp0 boot (w : wstate) : Prop :=
  PI (fun _ => w) /\
  (exists es, fold_left (rstep M) (rev (w_log w)) (rinit M comp0 boot) = (w_comp w, w_seq w, es) /\
     Permutation es (rev (w_log w) ++ w_queue w)) /\
  NoDup (rev (w_log w) ++ w_queue w) /\
  (forall x, In x (w_log w) -> k_seq (e_key x) < w_seq w (e_link x)) /\
  ordered M comp0 boot (rev (w_log w)) /\
  (forall x y, In x (w_log w) -> In y (w_queue w) -> e_time x <= e_time y) /\
  (forall x, In x (w_log w) -> e_time x <= w_now w) /\
  Sorted (fun a b => e_time a <= e_time b) (rev (w_log w)).

Lemma emit_seq now ss : forall seq e, In e (snd (emit M now seq ss)) ->
  seq (e_link e) <= k_seq (e_key e) /\ k_seq (e_key e) < fst (emit M now seq ss) (e_link e) /\ now <= e_time e.
Proof.
  induction ss as [|s ss IH]; intros seq e; simpl; [contradiction|].
  set (seq1 := fun x => if x =? s_link s then seq (s_link s) + 1 else seq x).
  assert (Hmono : forall ss seq l, seq l <= fst (emit M now seq ss) l).
  { clear. induction ss as [|s ss IH]; intros seq l; simpl; [lia|].
    set (seq1 := fun x => if x =? s_link s then seq (s_link s) + 1 else seq x).
    specialize (IH seq1 l). destruct (emit M now seq1 ss); simpl in *.
    unfold seq1 in IH. destruct (l =? s_link s) eqn:E; [|lia]. apply N.eqb_eq in E; subst. lia. }
  specialize (IH seq1). specialize (Hmono ss seq1).
  destruct (emit M now seq1 ss) as [sq es]. simpl in *. intros [<-|He].
  - unfold e_link, e_time. simpl. specialize (Hmono (s_link s)). unfold seq1 in Hmono. rewrite N.eqb_refl in Hmono. lia.
  - destruct (IH e He) as (H1&H2&H3). unfold seq1 in H1. destruct (e_link e =? s_link s) eqn:E; [|auto].
    apply N.eqb_eq in E. rewrite <- E in H1. repeat split; auto; lia.
Qed.

Lemma emit_NoDup now ss : forall seq, NoDup (snd (emit M now seq ss)).
Proof.
  induction ss as [|s ss IH]; intros seq; simpl; [constructor|].
  set (seq1 := fun x => if x =? s_link s then seq (s_link s) + 1 else seq x).
  pose proof (emit_seq now ss seq1) as Hs. specialize (IH seq1).
  destruct (emit M now seq1 ss) as [sq es]. simpl in *. constructor; auto.
  intros Hin. destruct (Hs _ Hin) as (H1&_). unfold e_link in H1. simpl in H1. unfold seq1 in H1.
  rewrite N.eqb_refl in H1. lia.
Qed.

Lemma NoDup_app {A} (a b : list A) : NoDup a -> NoDup b -> (forall x, In x a -> ~ In x b) -> NoDup (a ++ b).
Proof.
  induction a as [|x a IH]; simpl; intros Ha Hb Hd; auto. inversion Ha; subst.
  constructor; [rewrite in_app_iff; intros [?|?]; auto; eapply Hd; eauto|]. apply IH; auto.
Qed.

Lemma rstep_event comp sq es e p st ss sq1 es1 :
  e_body e = Some p ->
  m_handler M (m_dst M (e_link e)) (comp (m_dst M (e_link e))) (e_time e) (e_link e) p = (st, ss) ->
  emit M (e_time e) sq ss = (sq1, es1) ->
  rstep M (comp, sq, es) e = (upd comp (m_dst M (e_link e)) st, sq1, es ++ es1).
Proof. intros Hb Hh He. unfold rstep. rewrite Hb, Hh, He. reflexivity. Qed.

Lemma sorted_snoc_le (l : list event) e :
  Sorted (fun a b => e_time a <= e_time b) l -> (forall x, In x l -> e_time x <= e_time e) ->
  Sorted (fun a b => e_time a <= e_time b) (l ++ [e]).
Proof.
  induction l as [|x l IH]; simpl; intros Hs Hle; [constructor; constructor|].
  inversion Hs; subst. constructor; [apply IH; auto|].
  destruct l as [|y l]; simpl in *; constructor.
  - apply Hle; auto.
  - inversion H2; auto.
Qed.

Lemma SInv_step comp0 boot w w' :
  SInv comp0 boot w -> wstep M own None w = Some w' -> SInv comp0 boot w'.
Proof.
  intros (HI&(es&Hfold&Hperm)&Hnd&Hlogseq&Hord&Hle&Hlognow&Hsrt) Hst.
  assert (H0 : (0 < 1)%nat) by lia.
  destruct (wstep_inv M own 1 0 None (fun _ => w) 0 w' Hst HI H0)
    as (e&r&p&c&st&ss&Hq&_&Hbody&Hc&_&Hh&Hw').
  subst c.
  destruct (pop_PInv M own 1 0 None (fun _ => w) 0 e r (upd (w_comp w) (m_dst M (e_link e)) st) H0 HI Hq eq_refl)
    as [HI1 _].
  eapply PInv_ext in HI1; [|exact own1|intros x Hx; apply const_sys; exact Hx].
  set (w1 := W (e_time e) r (w_minipc w) (w_stopped w) (upd (w_comp w) (m_dst M (e_link e)) st)
        (w_seq w) (w_out w) (e :: w_log w) (w_past w || (e_time e <? w_now w)) (w_lost w)) in *.
  destruct (do_sends_serial ss w1 HI1) as (HI2&Hseq2&Hq2&Hcomp2&Hlog2&Hnow2).
  rewrite <- Hw' in *.
  assert (He : In e (w_queue w)) by (rewrite Hq; simpl; auto).
  pose proof (pi_sorted _ _ _ _ _ _ HI 0%nat H0) as Hsort. simpl in Hsort. rewrite Hq in Hsort.
  destruct (emit M (e_time e) (w_seq w) ss) as [sq1 es1] eqn:Ee.
  assert (Hsq1 : fst (emit M (e_time e) (w_seq w) ss) = sq1) by now rewrite Ee.
  assert (Hes1 : snd (emit M (e_time e) (w_seq w) ss) = es1) by now rewrite Ee.
  simpl in Hseq2, Hq2. rewrite Ee in Hseq2, Hq2. simpl in Hseq2, Hq2.
  assert (Hmono : forall l, w_seq w l <= sq1 l).
  { intros l. rewrite <- Hsq1. clear. revert l. generalize (w_seq w) as seq.
    induction ss as [|s ss IH]; intros seq l; simpl; [lia|].
    set (seq1 := fun x => if x =? s_link s then seq (s_link s) + 1 else seq x).
    specialize (IH seq1 l). destruct (emit M (e_time e) seq1 ss); simpl in *.
    unfold seq1 in IH. destruct (l =? s_link s) eqn:E; [|lia]. apply N.eqb_eq in E; subst. lia. }
  assert (Hold : forall x, In x (rev (w_log w) ++ w_queue w) -> k_seq (e_key x) < w_seq w (e_link x)).
  { intros x Hx. apply in_app_iff in Hx as [Hx|Hx]; [apply in_rev in Hx; auto|].
    destruct (pi_q _ _ _ _ _ _ HI 0%nat x H0 Hx) as (_&_&_&Hb&_). exact Hb. }
  assert (Hrev : rev (w_log w') = rev (w_log w) ++ [e]) by (rewrite Hlog2; reflexivity).
  assert (Hperm' : Permutation (rev (w_log w') ++ w_queue w') ((rev (w_log w) ++ w_queue w) ++ es1)).
  { rewrite Hrev, Hq2, Hq. rewrite <- !app_assoc. simpl. apply Permutation_refl. }
  assert (Hfold' : fold_left (rstep M) (rev (w_log w')) (rinit M comp0 boot) = (w_comp w', w_seq w', es ++ es1)).
  { rewrite Hrev, fold_left_app, Hfold. cbn [fold_left].
    rewrite (rstep_event _ _ _ _ _ _ _ _ _ Hbody Hh Ee). rewrite Hcomp2, Hseq2. reflexivity. }
  split; [exact HI2|].
  split. { exists (es ++ es1). split; [exact Hfold'|]. rewrite Hperm', Hperm. reflexivity. }
  split.
  { eapply Permutation_NoDup; [symmetry; exact Hperm'|]. apply NoDup_app; auto.
    - rewrite <- Hes1. apply emit_NoDup.
    - intros x Hx Hx'. rewrite <- Hes1 in Hx'. apply emit_seq in Hx' as (H1&_). apply Hold in Hx. lia. }
  split.
  { intros x Hx. rewrite Hlog2 in Hx. rewrite Hseq2. destruct Hx as [<-|Hx].
    - specialize (Hold e ltac:(rewrite in_app_iff; auto)). specialize (Hmono (e_link e)). lia.
    - specialize (Hlogseq x Hx). specialize (Hmono (e_link x)). lia. }
  split.
  { rewrite Hrev. intros h1 e' h2 Heq.
    assert (Hcase : h2 = [] \/ exists h2', h2 = h2' ++ [e]).
    { destruct h2 as [|y h2] using rev_ind; [auto|right].
      exists h2. f_equal. f_equal. change (e' :: h2 ++ [y]) with ((e' :: h2) ++ [y]) in Heq. rewrite app_assoc in Heq.
      apply app_inj_tail in Heq as [_ Heq]. auto. }
    destruct Hcase as [->|[h2' ->]].
    - apply app_inj_tail in Heq as [<- <-].
      assert (Hca : caused M comp0 boot (rev (w_log w)) = es) by (rewrite <- caused_fold, Hfold; auto).
      rewrite Hca. split; [|split].
      + eapply Permutation_in; [symmetry; exact Hperm|]. rewrite in_app_iff. auto.
      + intros Hin. rewrite Hq in Hnd. apply NoDup_remove_2 in Hnd. apply Hnd. rewrite in_app_iff. auto.
      + intros x Hx. eapply Permutation_in in Hx; [|exact Hperm]. apply in_app_iff in Hx as [Hx|Hx]; auto.
        right. rewrite Hq in Hx. destruct (sorted_min _ _ _ Hsort Hx); auto.
    - change (e' :: h2' ++ [e]) with ((e' :: h2') ++ [e]) in Heq. rewrite app_assoc in Heq.
      apply app_inj_tail in Heq as [Heq _]. now apply (Hord h1 e' h2'). }
  assert (Hlt : forall x, In x (w_log w) -> e_time x <= e_time e) by (intros; now apply Hle).
  assert (Hnow' : w_now w' = e_time e) by (rewrite Hnow2; reflexivity).
  split.
  { intros x y Hx Hy. rewrite Hlog2 in Hx.
    assert (Hey : e_time e <= e_time y).
    { eapply Permutation_in in Hy; [|exact Hq2]. apply in_app_iff in Hy as [Hy|Hy].
      - eapply sorted_min_time; [exact Hsort|simpl; auto].
      - rewrite <- Hes1 in Hy. apply emit_seq in Hy. lia. }
    destruct Hx as [<-|Hx]; auto. specialize (Hlt x Hx). lia. }
  split.
  { intros x Hx. rewrite Hlog2 in Hx. rewrite Hnow'. destruct Hx as [<-|Hx]; [lia|auto]. }
  rewrite Hrev. apply sorted_snoc_le; auto. intros x Hx. apply Hlt. now apply in_rev.
Qed.

Lemma SInv_loop comp0 boot fuel : forall w w',
  SInv comp0 boot w -> loop M own fuel None w = Some w' -> SInv comp0 boot w' /\ w_queue w' = [].
Proof.
  induction fuel as [|f IH]; intros w w' HI; simpl; [discriminate|].
  destruct (wstep M own None w) as [w1|] eqn:E; intros H.
  - eapply IH; [|exact H]. eapply SInv_step; eauto.
  - injection H as <-. split; auto. unfold wstep in E. destruct (w_queue w); auto. discriminate.
Qed.

Lemma SInv_init comp0 boot : SInv comp0 boot (forget_ipc (do_sends M own (init_w comp0) boot)).
Proof.
  assert (HI0 : PI (fun _ => init_w comp0)) by (apply empty_PInv; [exact own1|discriminate]).
  destruct (do_sends_serial boot (init_w comp0) HI0) as (HI&Hseq&Hq&Hc&Hl&Hn).
  assert (Hout : w_out (do_sends M own (init_w comp0) boot) = []).
  { destruct (w_out (do_sends M own (init_w comp0) boot)) as [|x r] eqn:E; auto.
    destruct (pi_out _ _ _ _ _ _ HI 0%nat x ltac:(lia)) as (Hb&_); [rewrite E; simpl; auto|discriminate]. }
  set (w := do_sends M own (init_w comp0) boot) in *.
  unfold SInv. simpl. rewrite Hl. simpl.
  split.
  { constructor; simpl; intros w0; intros.
    - now apply (pi_sorted _ _ _ _ _ _ HI w0).
    - now apply (pi_q _ _ _ _ _ _ HI w0).
    - reflexivity.
    - rewrite Hout in *. contradiction.
    - discriminate.
    - rewrite Hout. constructor.
    - rewrite Hout in *. contradiction.
    - now apply (pi_flags _ _ _ _ _ _ HI w0). }
  split.
  { eexists. split; [unfold rinit; rewrite Hseq, Hc; reflexivity|]. simpl in Hq. rewrite Hq. reflexivity. }
  split. { eapply Permutation_NoDup; [symmetry; exact Hq|]. simpl. apply emit_NoDup. }
  split; [contradiction|].
  split. { intros h1 e h2 H. destruct h1; discriminate. }
  split; [contradiction|]. split; [contradiction|constructor].
Qed.

Lemma serial_run_SInv fuel comp0 boot w :
  serial_run M fuel comp0 boot = Some w -> SInv comp0 boot w /\ w_queue w = [].
Proof. intros H. eapply SInv_loop; [apply SInv_init|exact H]. Qed.

(** The history of a completed serial run. *)
Theorem serial_ordered fuel comp0 boot w :
  serial_run M fuel comp0 boot = Some w -> ordered M comp0 boot (history w).
Proof. intros H. apply serial_run_SInv in H as ((_&_&_&_&H&_)&_). exact H. Qed.

Theorem serial_complete fuel comp0 boot w :
  serial_run M fuel comp0 boot = Some w ->
  complete M comp0 boot (history w) /\ Permutation (history w) (caused M comp0 boot (history w)).
Proof.
  intros H. apply serial_run_SInv in H as ((_&(es&Hf&Hp)&Hn&_)&Hq).
  rewrite Hq, app_nil_r in *. unfold complete, history. rewrite <- caused_fold, Hf. simpl.
  split; [|now symmetry]. split; auto. intros x. split; apply Permutation_in; auto. now symmetry.
Qed.

Theorem serial_monotone fuel comp0 boot w :
  serial_run M fuel comp0 boot = Some w ->
  StronglySorted (fun a b => e_time a <= e_time b) (history w) /\ w_past w = false /\ w_lost w = false.
Proof.
  intros H. apply serial_run_SInv in H as ((HI&_&_&_&_&_&_&Hs)&_).
  split.
  - apply Sorted_StronglySorted; auto. intros a b c; lia.
  - apply (pi_flags _ _ _ _ _ _ HI 0%nat). lia.
Qed.
End Serial.
