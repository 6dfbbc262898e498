From Coq Require Import List NArith Bool Arith Lia Permutation Sorted.
From Coq Require Import ZifyBool ZifyNat ZifyN.
From Verif Require Import EvModel EvSpec EvProof EvInv EvSync EvSerial.
Import ListNotations.
Local Open Scope N_scope.

Section Par.
Context {S P : Type}.
Variable M : machine S P.
Variable own : N -> nat.
Variable n : nat.
Hypothesis Hown : forall c, (own c < n)%nat.
Hypothesis Hlinks : own_links M.

Notation event := (event P).
Notation wstate := (wstate S P).
Notation sysupd := (@sysupd S P).
Notation own0 := (fun _ : N => O).
Notation PS := (PInv M own0 1 0 None).
Notation PP := (PInv M own n).

Lemma own01 : forall c : N, ((fun _ : N => O) c < 1)%nat.
Proof. intros; simpl; auto. Qed.

(** ** Fuel *)
Lemma loop_mono ow h f : forall f' w w', (f <= f')%nat -> loop M ow f h w = Some w' -> loop M ow f' h w = Some w'.
Proof.
  induction f as [|f IH]; intros f' w w' Hle; simpl; [discriminate|].
  destruct f' as [|f']; [lia|]. simpl. destruct (wstep M ow h w) as [w1|]; auto.
  apply IH. lia.
Qed.

Lemma loop_det ow h f f' w a b : loop M ow f h w = Some a -> loop M ow f' h w = Some b -> a = b.
Proof.
  intros Ha Hb. apply (loop_mono ow h f (f + f')%nat) in Ha; [|lia].
  apply (loop_mono ow h f' (f + f')%nat) in Hb; [|lia]. congruence.
Qed.

Lemma wstep_weaken ow h w w' : wstep M ow h w = Some w' -> wstep M ow None w = Some w'.
Proof.
  unfold wstep. destruct (w_queue w) as [|e r]; auto. destruct (before (e_time e) h); [auto|discriminate].
Qed.

Lemma loop_split ow h k : forall w wf, loop M ow k None w = Some wf ->
  exists k1 w1 k2, loop M ow k1 h w = Some w1 /\ loop M ow k2 None w1 = Some wf /\ (k2 <= k)%nat /\
    (wstep M ow h w <> None -> (k2 < k)%nat).
Proof.
  induction k as [|k IH]; intros w wf H; [discriminate|].
  destruct (wstep M ow h w) as [w'|] eqn:E.
  - pose proof (wstep_weaken _ _ _ _ E) as E'. simpl in H. rewrite E' in H.
    destruct (IH _ _ H) as (k1&w1&k2&H1&H2&H3&_).
    exists (Datatypes.S k1), w1, k2. repeat split; auto; try lia. simpl. now rewrite E.
  - exists 1%nat, w, (Datatypes.S k). repeat split; auto; try lia; [simpl; now rewrite E|congruence].
Qed.

Lemma loop_join ow h k : forall k2 w w1 wf, loop M ow k h w = Some w1 -> loop M ow k2 None w1 = Some wf ->
  loop M ow (k + k2) None w = Some wf.
Proof.
  induction k as [|k IH]; intros k2 w w1 wf H H2; [discriminate|].
  simpl in H. destruct (wstep M ow h w) as [w'|] eqn:E.
  - simpl. rewrite (wstep_weaken _ _ _ _ E). eapply IH; eauto.
  - injection H as <-. eapply loop_mono; [|exact H2]. lia.
Qed.

(** ** The relation between the serial state and the managers *)
Record R (s : wstate) (sys : nat -> wstate) : Prop := {
  r_comp : forall c, w_comp s c = w_comp (sys (own c)) c;
  r_seq : forall l, w_seq s l = w_seq (sys (own (m_src M l))) l;
  r_q : forall e, In e (w_queue s) <->
     In e (w_queue (sys (own (m_dst M (e_link e))))) \/ exists w, (w < n)%nat /\ In e (w_out (sys w));
  r_log : forall c, seen_by M c (w_log s) = seen_by M c (w_log (sys (own c)))
}.

Lemma R_ext s sys sys' : (forall w, (w < n)%nat -> sys w = sys' w) -> R s sys -> R s sys'.
Proof.
  intros He HR. constructor.
  - intros c. rewrite <- He by auto. apply (r_comp _ _ HR).
  - intros c. rewrite <- He by auto. apply (r_seq _ _ HR).
  - intros e. rewrite (r_q _ _ HR). rewrite <- He by auto. split; (intros [H|(w&Hw&H)]; [auto|right; exists w; split; auto]).
    + now rewrite <- He. + now rewrite He.
  - intros c. rewrite <- He by auto. apply (r_log _ _ HR).
Qed.

(** One send done in both worlds. *)
Lemma send_R lb h s sys w x :
  (forall l t d, remote M own l = true -> lb <= t -> before (t + d + m_lat M l) h = false) ->
  R s sys -> PS (fun _ => s) -> PP lb h sys -> (w < n)%nat ->
  own (m_src M (s_link x)) = w -> w_now s = w_now (sys w) -> lb <= w_now (sys w) ->
  R (do_send M own0 s x) (sysupd sys w (do_send M own (sys w) x)) /\
  PS (fun _ => do_send M own0 s x) /\ PP lb h (sysupd sys w (do_send M own (sys w) x)) /\
  w_now (do_send M own0 s x) = w_now s /\ w_now (do_send M own (sys w) x) = w_now (sys w).
Proof.
  intros Hlook HR HS HP Hw Hsrc Hnow Hlb.
  destruct (do_send_PInv M own n Hown lb h Hlook sys w x Hw HP Hsrc Hlb) as [HP' Hn'].
  destruct (do_send_PInv M own0 1 own01 0 None (look0 M) (fun _ => s) 0 x ltac:(lia) HS eq_refl (N.le_0_l _)) as [HS' Hns].
  eapply PInv_ext in HS'; [|exact own01|intros y Hy; apply const_sys; exact Hy].
  split; [|split; [exact HS'|split; [exact HP'|split; [exact Hns|exact Hn']]]].
  pose proof (pi_flags _ _ _ _ _ _ HS' 0%nat ltac:(lia)) as [_ Hls].
  pose proof (pi_flags _ _ _ _ _ _ HP' w Hw) as [_ Hlp]. rewrite sysupd_same in Hlp.
  pose proof (r_seq _ _ HR (s_link x)) as Hsq. rewrite Hsrc in Hsq.
  set (l := s_link x) in *.
  set (e0 := Ev (Key (w_now (sys w) + s_delay x + m_lat M l) l (w_seq (sys w) l)) (Some (s_pay x))).
  assert (Hlocal : do_send M own0 s x = schedule e0 (W (w_now s) (w_queue s) (w_minipc s) (w_stopped s) (w_comp s)
              (upd (w_seq s) l (w_seq s l + 1)) (w_out s) (w_log s) (w_past s) (w_lost s))).
  { unfold do_send, e0. simpl. fold l. now rewrite Hnow, Hsq. }
  rewrite Hlocal in *. simpl in Hls. apply orb_false_iff in Hls as [_ Hcs].
  (* queue of the serial side *)
  assert (HqS : forall e, In e (qinsert e0 (w_queue s)) <-> e = e0 \/ In e (w_queue s)) by (intros; now apply qinsert_In).
  assert (Hcase : (remote M own l = true /\ w_queue (do_send M own (sys w) x) = w_queue (sys w) /\
            w_out (do_send M own (sys w) x) = w_out (sys w) ++ [e0]) \/
         (remote M own l = false /\ (forall e, In e (w_queue (do_send M own (sys w) x)) <-> e = e0 \/ In e (w_queue (sys w))) /\
            w_out (do_send M own (sys w) x) = w_out (sys w))).
  { unfold do_send in *. fold l in Hlp |- *. fold e0 in Hlp |- *. destruct (remote M own l); [left; auto|right].
    simpl in *. apply orb_false_iff in Hlp as [_ Hcp]. split; auto. split; auto. intros e. now apply qinsert_In. }
  assert (Hoth : w_comp (do_send M own (sys w) x) = w_comp (sys w) /\ w_log (do_send M own (sys w) x) = w_log (sys w) /\
            w_seq (do_send M own (sys w) x) = upd (w_seq (sys w)) l (w_seq (sys w) l + 1)).
  { unfold do_send. fold l. destruct (remote M own l); auto. }
  destruct Hoth as (Hoc&Hol&Hos).
  constructor; simpl.
  - intros c. rewrite (r_comp _ _ HR). unfold EvSpec.sysupd. destruct (Nat.eqb (own c) w) eqn:E; auto.
    apply Nat.eqb_eq in E. now rewrite Hoc, E.
  - intros l'. unfold EvSpec.sysupd, upd. pose proof (r_seq _ _ HR l') as Hl'.
    destruct (Nat.eqb (own (m_src M l')) w) eqn:E.
    + apply Nat.eqb_eq in E. rewrite Hos. unfold upd. rewrite Hsq. destruct (l' =? l); auto. now rewrite Hl', E.
    + destruct (l' =? l) eqn:E2; auto. apply N.eqb_eq in E2. subst l'. apply Nat.eqb_neq in E. contradiction.
  - intros e. rewrite HqS, (r_q _ _ HR). unfold EvSpec.sysupd.
    destruct Hcase as [(Hr&Hq&Ho)|(Hr&Hq&Ho)].
    + assert (Hqq : forall y, w_queue (if Nat.eqb y w then do_send M own (sys w) x else sys y) = w_queue (sys y)).
      { intros y. destruct (Nat.eqb y w) eqn:E; auto. apply Nat.eqb_eq in E. now subst. }
      rewrite Hqq. split.
      * intros [->|[H|(w'&Hw'&H)]]; auto.
        -- right. exists w. split; auto. rewrite Nat.eqb_refl, Ho. rewrite in_app_iff. simpl. auto.
        -- right. exists w'. split; auto. destruct (Nat.eqb w' w) eqn:E; auto. apply Nat.eqb_eq in E; subst w'.
           rewrite Ho, in_app_iff. auto.
      * intros [H|(w'&Hw'&H)]; auto. destruct (Nat.eqb w' w) eqn:E; [|right; right; eauto].
        rewrite Ho, in_app_iff in H. simpl in H. destruct H as [H|[H|[]]]; auto. right. right. eauto.
    + assert (Hoo : forall y, w_out (if Nat.eqb y w then do_send M own (sys w) x else sys y) = w_out (sys y)).
      { intros y. destruct (Nat.eqb y w) eqn:E; auto. apply Nat.eqb_eq in E. now subst. }
      assert (Hd0 : own (m_dst M (e_link e0)) = w).
      { unfold remote in Hr. apply negb_false_iff, Nat.eqb_eq in Hr. rewrite Hsrc in Hr. auto. }
      split.
      * intros [->|[H|(w'&Hw'&H)]].
        -- left. rewrite Hd0, Nat.eqb_refl. apply Hq. auto.
        -- left. destruct (Nat.eqb _ w) eqn:E; auto. apply Nat.eqb_eq in E. apply Hq. rewrite E in H. auto.
        -- right. exists w'. split; auto. now rewrite Hoo.
      * intros [H|(w'&Hw'&H)].
        -- destruct (Nat.eqb (own (m_dst M (e_link e))) w) eqn:E; auto. apply Nat.eqb_eq in E.
           apply Hq in H as [H|H]; auto. right. left. now rewrite E.
        -- rewrite Hoo in H. right. right. eauto.
  - intros c. rewrite (r_log _ _ HR). unfold EvSpec.sysupd. destruct (Nat.eqb (own c) w) eqn:E; auto.
    apply Nat.eqb_eq in E. now rewrite Hol, E.
Qed.

Lemma sends_R lb h ss : forall s sys w,
  (forall l t d, remote M own l = true -> lb <= t -> before (t + d + m_lat M l) h = false) ->
  R s sys -> PS (fun _ => s) -> PP lb h sys -> (w < n)%nat ->
  Forall (fun x => own (m_src M (s_link x)) = w) ss -> w_now s = w_now (sys w) -> lb <= w_now (sys w) ->
  R (do_sends M own0 s ss) (sysupd sys w (do_sends M own (sys w) ss)).
Proof.
  induction ss as [|x ss IH]; intros s sys w Hlook HR HS HP Hw Hf Hnow Hlb; simpl.
  - eapply R_ext; [|exact HR]. intros y _. unfold EvSpec.sysupd. destruct (Nat.eqb y w) eqn:E; auto.
    apply Nat.eqb_eq in E. now subst.
  - inversion Hf as [|? ? Hx Hf']; subst.
    destruct (send_R lb h s sys _ x Hlook HR HS HP Hw eq_refl Hnow Hlb) as (HR1&HS1&HP1&Hn1&Hn2).
    set (w := own (m_src M (s_link x))) in *.
    specialize (IH _ _ w Hlook HR1 HS1 HP1 Hw Hf'). rewrite sysupd_same in IH.
    rewrite Hn1, Hn2 in IH. specialize (IH Hnow Hlb).
    eapply R_ext; [|exact IH]. intros y _. unfold EvSpec.sysupd. destruct (Nat.eqb y w); auto.
Qed.

(** One serial step before the horizon is matched by one step of the owning manager. *)
Lemma step_R lb t s sys s' :
  (forall l u d, remote M own l = true -> lb <= u -> before (u + d + m_lat M l) (Some t) = false) ->
  R s sys -> PS (fun _ => s) -> PP lb (Some t) sys ->
  wstep M own0 (Some t) s = Some s' ->
  exists w p', (w < n)%nat /\ wstep M own (Some t) (sys w) = Some p' /\
    R s' (sysupd sys w p') /\ PS (fun _ => s') /\ PP lb (Some t) (sysupd sys w p').
Proof.
  intros Hlook HR HS HP Hst.
  pose proof (wstep_weaken _ _ _ _ Hst) as HstN.
  destruct (wstep_inv M own0 1 0 None (fun _ => s) 0 s' HstN HS ltac:(lia))
    as (e&r&p&c&st&ss&Hq&_&Hbody&Hc&_&Hh&Hs').
  assert (Hb : before (e_time e) (Some t) = true).
  { unfold wstep in Hst. rewrite Hq in Hst. destruct (before (e_time e) (Some t)); auto; discriminate. }
  set (w := own c).
  assert (Hw : (w < n)%nat) by apply Hown.
  pose proof (pi_sorted _ _ _ _ _ _ HS 0%nat ltac:(lia)) as HsS. simpl in HsS. rewrite Hq in HsS.
  pose proof (pi_sorted _ _ _ _ _ _ HP w Hw) as HsP.
  assert (Hein : In e (w_queue (sys w))).
  { assert (In e (w_queue s)) as Hin by (rewrite Hq; simpl; auto).
    apply (r_q _ _ HR) in Hin as [Hin|(w'&Hw'&Hin)]; [unfold w; now rewrite Hc|].
    destruct (pi_out _ _ _ _ _ _ HP _ _ Hw' Hin) as (Hb'&_). congruence. }
  destruct (w_queue (sys w)) as [|e' r'] eqn:Hqp; [contradiction|].
  assert (Hhead : e' = e).
  { destruct (sorted_min _ _ _ HsP Hein) as [|Hlt]; auto.
    assert (Hin' : In e' (w_queue s)).
    { apply (r_q _ _ HR). left. 
      destruct (pi_q _ _ _ _ _ _ HP w e' Hw) as (_&_&Hd&_); [rewrite Hqp; simpl; auto|].
      rewrite Hd, Hqp. simpl; auto. }
    rewrite Hq in Hin'. destruct (sorted_min _ _ _ HsS Hin') as [|Hlt']; auto.
    exfalso. eapply earlier_irrefl, earlier_trans; eauto. }
  subst e'.
  assert (Hstp : wstep M own (Some t) (sys w) = Some (exec M own (sys w) e r')).
  { unfold wstep. now rewrite Hqp, Hb. }
  exists w, (exec M own (sys w) e r'). split; auto. split; auto.
  pose proof (wstep_PInv M own n Hown Hlinks lb (Some t) Hlook sys w _ Hw HP Hstp) as HP'.
  assert (HS' : PS (fun _ => s')).
  { pose proof (wstep_PInv M own0 1 own01 Hlinks 0 None (look0 M) (fun _ => s) 0 _ ltac:(lia) HS HstN) as HX.
    eapply PInv_ext; [exact own01| |exact HX]. intros y Hy. apply const_sys. exact Hy. }
  split; [|split; auto].
  unfold exec. rewrite Hbody. rewrite <- Hc. pose proof (r_comp _ _ HR c) as Hcc. fold w in Hcc. rewrite <- Hcc, Hh.
  rewrite Hs'.
  destruct (pop_PInv M own n lb (Some t) sys w e r' (upd (w_comp (sys w)) c st) Hw HP Hqp Hb) as [HP1 Hl1].
  destruct (pop_PInv M own0 1 0 None (fun _ => s) 0 e r (upd (w_comp s) c st) ltac:(lia) HS Hq eq_refl) as [HS1 _].
  eapply PInv_ext in HS1; [|exact own01|intros y Hy; apply const_sys; exact Hy].
  match type of HP1 with PInv _ _ _ _ _ (EvSpec.sysupd _ _ ?x) => set (p1 := x) in * end.
  match type of HS1 with PInv _ _ _ _ _ (fun _ => ?x) => set (s1 := x) in * end.
  assert (HR1 : R s1 (sysupd sys w p1)).
  { constructor; simpl.
    - intros c'. unfold EvSpec.sysupd. pose proof (r_comp _ _ HR c') as Hc'. destruct (Nat.eqb (own c') w) eqn:E.
      + apply Nat.eqb_eq in E. simpl. unfold upd. rewrite Hc', E. reflexivity.
      + unfold upd. destruct (c' =? c) eqn:E2; auto. apply N.eqb_eq in E2. subst c'. apply Nat.eqb_neq in E. now exfalso.
    - intros l. unfold EvSpec.sysupd. rewrite (r_seq _ _ HR). destruct (Nat.eqb _ w) eqn:E; auto.
      apply Nat.eqb_eq in E. now rewrite E.
    - intros y.
      assert (HndS : ~ In e r).
      { intros Hi. inversion HsS as [|? ? _ Ha]; subst. rewrite Forall_forall in Ha. eapply earlier_irrefl, (Ha e Hi). }
      assert (HndP : ~ In e r').
      { intros Hi. inversion HsP as [|? ? _ Ha]; subst. rewrite Forall_forall in Ha. eapply earlier_irrefl, (Ha e Hi). }
      assert (Hy : In y r <-> In y (w_queue s) /\ y <> e).
      { rewrite Hq. simpl. split; [intros Hi; split; auto; intros ->; auto|intros [[|] ?]; auto; congruence]. }
      rewrite Hy, (r_q _ _ HR). unfold EvSpec.sysupd.
      assert (Hoo : forall z, w_out (if Nat.eqb z w then p1 else sys z) = w_out (sys z)).
      { intros z. destruct (Nat.eqb z w) eqn:E; auto. apply Nat.eqb_eq in E. now subst z. }
      assert (Hq1 : In y (w_queue (if Nat.eqb (own (m_dst M (e_link y))) w then p1 else sys (own (m_dst M (e_link y))))) <->
                   In y (w_queue (sys (own (m_dst M (e_link y))))) /\ y <> e).
      { destruct (Nat.eqb _ w) eqn:E.
        - apply Nat.eqb_eq in E. rewrite E, Hqp. simpl. split; [intros Hi; split; auto; intros ->; auto|intros [[|] ?]; auto; congruence].
        - split; [|tauto]. intros Hi. split; auto. intros ->. apply Nat.eqb_neq in E. apply E. unfold w. now rewrite Hc. }
      rewrite Hq1. split.
      + intros [[?|(w'&Hw'&?)] ?]; auto. right. exists w'. rewrite Hoo. auto.
      + intros [[? ?]|(w'&Hw'&Ho)]; auto. rewrite Hoo in Ho. split; [right; eauto|]. intros ->.
        destruct (pi_out _ _ _ _ _ _ HP _ _ Hw' Ho) as (Hb'&_). congruence.
    - intros c'. rewrite (r_log _ _ HR). unfold EvSpec.sysupd. destruct (Nat.eqb (own c') w) eqn:E.
      + apply Nat.eqb_eq in E. simpl. now rewrite E.
      + replace (m_dst M (e_link e) =? c') with false; auto. symmetry. apply N.eqb_neq. intros Hx.
        apply Nat.eqb_neq in E. apply E. unfold w. now rewrite Hc, Hx. }
  assert (Hf : Forall (fun x => own (m_src M (s_link x)) = w) ss).
  { apply Hlinks in Hh. eapply Forall_impl; [|exact Hh]. simpl. intros a Ha. now rewrite Ha. }
  pose proof (sends_R lb (Some t) ss s1 (sysupd sys w p1) w Hlook HR1 HS1 HP1 Hw Hf) as HX.
  rewrite sysupd_same in HX. specialize (HX eq_refl Hl1).
  eapply R_ext; [|exact HX]. intros y _. unfold EvSpec.sysupd. destruct (Nat.eqb y w); auto.
Qed.

(** When the serial run has nothing before the horizon, neither has any manager. *)
Lemma quiet_R lb t s sys :
  R s sys -> PP lb (Some t) sys -> PS (fun _ => s) -> wstep M own0 (Some t) s = None ->
  forall w, (w < n)%nat -> wstep M own (Some t) (sys w) = None.
Proof.
  intros HR HP HS Hst w Hw. unfold wstep in *. destruct (w_queue (sys w)) as [|e r] eqn:Hq; auto.
  destruct (before (e_time e) (Some t)) eqn:Hb; auto. exfalso.
  destruct (pi_q _ _ _ _ _ _ HP w e Hw) as (_&_&Hd&_); [rewrite Hq; simpl; auto|].
  assert (Hin : In e (w_queue s)) by (apply (r_q _ _ HR); left; rewrite Hd, Hq; simpl; auto).
  pose proof (pi_sorted _ _ _ _ _ _ HS 0%nat ltac:(lia)) as HsS. simpl in HsS.
  destruct (w_queue s) as [|x rx]; [contradiction|].
  pose proof (sorted_min_time _ _ _ HsS Hin). simpl in *.
  destruct (e_time x <? t) eqn:E; [discriminate|]. lia.
Qed.

Lemma window_R lb t k : forall s sys s',
  (forall l u d, remote M own l = true -> lb <= u -> before (u + d + m_lat M l) (Some t) = false) ->
  R s sys -> PS (fun _ => s) -> PP lb (Some t) sys ->
  loop M own0 k (Some t) s = Some s' ->
  exists sys', (forall w, (w < n)%nat -> exists m, loop M own m (Some t) (sys w) = Some (sys' w)) /\
    R s' sys' /\ PS (fun _ => s') /\ PP lb (Some t) sys' /\ wstep M own0 (Some t) s' = None.
Proof.
  induction k as [|k IH]; intros s sys s' Hlook HR HS HP Hl; [discriminate|].
  simpl in Hl. destruct (wstep M own0 (Some t) s) as [s1|] eqn:E.
  - destruct (step_R lb t s sys s1 Hlook HR HS HP E) as (w&p'&Hw&Hstp&HR1&HS1&HP1).
    destruct (IH _ _ _ Hlook HR1 HS1 HP1 Hl) as (sys'&Hloops&HR'&HS'&HP'&Hq').
    exists sys'. split; [|auto]. intros w0 Hw0. destruct (Hloops w0 Hw0) as (m&Hm).
    unfold EvSpec.sysupd in Hm. destruct (Nat.eqb w0 w) eqn:Ew.
    + apply Nat.eqb_eq in Ew; subst w0. exists (Datatypes.S m). simpl. now rewrite Hstp.
    + eauto.
  - injection Hl as <-. exists sys. split; [|auto]. intros w Hw. exists 1%nat. simpl.
    now rewrite (quiet_R lb t s sys HR HP HS E w Hw).
Qed.

(** Conversely, if every manager finishes the window, so does the serial run. *)
Lemma sum_le_update (m : nat -> nat) w : (w < n)%nat -> (0 < m w)%nat ->
  (list_sum (map (fun x => if Nat.eqb x w then m x - 1 else m x)%nat (seq 0 n)) < list_sum (map m (seq 0 n)))%nat.
Proof.
  intros Hw Hm.
  assert (Hg : forall a len, (list_sum (map (fun x => if Nat.eqb x w then m x - 1 else m x)%nat (seq a len)) <= list_sum (map m (seq a len)))%nat /\
      ((a <= w < a + len)%nat -> (list_sum (map (fun x => if Nat.eqb x w then m x - 1 else m x)%nat (seq a len)) < list_sum (map m (seq a len)))%nat)).
  { intros a len. revert a. induction len as [|len IH]; intros a; simpl; [lia|].
    destruct (IH (Datatypes.S a)) as [H1 H2]. destruct (Nat.eqb a w) eqn:E; [apply Nat.eqb_eq in E; subst a|apply Nat.eqb_neq in E]; split; lia. }
  apply Hg. lia.
Qed.

Lemma window_R_conv lb t T : forall (m : nat -> nat) s sys,
  (forall l u d, remote M own l = true -> lb <= u -> before (u + d + m_lat M l) (Some t) = false) ->
  R s sys -> PS (fun _ => s) -> PP lb (Some t) sys ->
  (forall w, (w < n)%nat -> exists x, loop M own (m w) (Some t) (sys w) = Some x) ->
  (list_sum (map m (seq 0 n)) <= T)%nat ->
  exists k s', loop M own0 k (Some t) s = Some s'.
Proof.
  induction T as [|T IH]; intros m s sys Hlook HR HS HP Hm HT.
  - assert (H0 : (0 < n)%nat) by (specialize (Hown 0); lia).
    destruct (Hm 0%nat H0) as (x&Hx). exfalso.
    assert (m 0%nat = 0)%nat.
    { destruct n as [|n']; [lia|]. simpl in HT. lia. }
    rewrite H in Hx. discriminate.
  - destruct (wstep M own0 (Some t) s) as [s1|] eqn:E.
    + destruct (step_R lb t s sys s1 Hlook HR HS HP E) as (w&p'&Hw&Hstp&HR1&HS1&HP1).
      assert (Hmw : exists q x, m w = Datatypes.S q /\ loop M own q (Some t) p' = Some x).
      { destruct (Hm w Hw) as (x&Hx). destruct (m w) as [|q]; [discriminate|]. simpl in Hx. rewrite Hstp in Hx. eauto. }
      destruct Hmw as (q&x&Hq&Hx).
      destruct (IH (fun y => if Nat.eqb y w then m y - 1 else m y)%nat s1 (sysupd sys w p') Hlook HR1 HS1 HP1) as (k&s'&Hk).
      * intros w0 Hw0. unfold EvSpec.sysupd. destruct (Nat.eqb w0 w) eqn:Ew; [|auto].
        apply Nat.eqb_eq in Ew; subst w0. rewrite Hq. replace (Datatypes.S q - 1)%nat with q by lia. eauto.
      * pose proof (sum_le_update m w Hw ltac:(lia)). lia.
      * exists (Datatypes.S k), s'. simpl. now rewrite E.
    + exists 1%nat, s. simpl. now rewrite E.
Qed.

(** ** min_ipc_time_ is attained by an outgoing event *)
Definition att (s : wstate) : Prop := forall m, w_minipc s = Some m -> exists e, In e (w_out s) /\ e_time e = m.

Lemma do_sends_att ss : forall s, att s -> att (do_sends M own s ss).
Proof.
  induction ss as [|x ss IH]; intros s Ha; simpl; auto. apply IH. unfold do_send.
  destruct (remote M own (s_link x)); [|exact Ha].
  intros m Hm. simpl in *. set (a := w_now s + s_delay x + m_lat M (s_link x)) in *.
  destruct (w_minipc s) as [m0|] eqn:E; simpl in Hm; injection Hm as <-.
  - destruct (N.min_spec a m0) as [[_ Hmin]|[_ Hmin]]; rewrite Hmin.
    + eexists. split; [rewrite in_app_iff; right; simpl; left; reflexivity|reflexivity].
    + destruct (Ha m0 E) as (e&He&Ht). exists e. rewrite in_app_iff. auto.
  - eexists. split; [rewrite in_app_iff; right; simpl; left; reflexivity|reflexivity].
Qed.

Lemma wstep_att h s s' : att s -> wstep M own h s = Some s' -> att s'.
Proof.
  unfold wstep. destruct (w_queue s) as [|e r]; [discriminate|]. destruct (before _ _); [|discriminate].
  intros Ha H. injection H as <-. unfold exec. destruct (e_body e) as [p|].
  - destruct (m_handler M _ _ _ _ _) as [st ss]. apply do_sends_att. exact Ha.
  - intros m Hm. discriminate.
Qed.

Lemma loop_att h f : forall s s', att s -> loop M own f h s = Some s' -> att s'.
Proof.
  induction f as [|f IH]; intros s s' Ha; simpl; [discriminate|].
  destruct (wstep M own h s) as [s1|] eqn:E; intros H.
  - eapply IH; [|exact H]. eapply wstep_att; eauto.
  - now injection H as <-.
Qed.

Lemma omin_att a b k : omin a b = Some k -> a = Some k \/ b = Some k.
Proof.
  destruct a as [x|], b as [y|]; simpl; intros H; auto. injection H as <-.
  destruct (N.min_spec x y) as [[_ ->]|[_ ->]]; auto.
Qed.

Lemma omin_list_att l k : omin_list l = Some k -> In (Some k) l.
Proof.
  induction l as [|a l IH]; simpl; [discriminate|]. intros H. apply omin_att in H as [?|?]; auto.
Qed.

(** ** Exchange of events *)
Lemma deliver_ext sys sys' w : (forall x, (x < n)%nat -> sys x = sys' x) -> (w < n)%nat ->
  deliver M own n sys w = deliver M own n sys' w.
Proof.
  intros He Hw. unfold deliver. rewrite (He w Hw).
  replace (inbox M own n sys w) with (inbox M own n sys' w); auto.
  unfold inbox. f_equal. rewrite !flat_map_concat_map. f_equal. apply map_ext_in.
  intros a Ha. apply in_seq in Ha. rewrite He; auto. lia.
Qed.

Lemma deliver_R lb h s sys : R s sys -> PP lb h sys -> h <> None ->
  R s (fun w => forget_ipc (deliver M own n sys w)).
Proof.
  intros HR HP Hh.
  assert (HD : forall w, (w < n)%nat -> _) by (intros w Hw; exact (deliver_spec M own n Hown lb h sys w HP Hw Hh)).
  constructor; simpl.
  - intros c. destruct (HD (own c) (Hown c)) as (_&_&_&_&_&Hc&_). rewrite Hc. apply (r_comp _ _ HR).
  - intros l. destruct (HD (own (m_src M l)) (Hown _)) as (_&_&_&_&_&_&Hc&_). rewrite Hc. apply (r_seq _ _ HR).
  - intros e. rewrite (r_q _ _ HR).
    destruct (HD (own (m_dst M (e_link e))) (Hown _)) as (_&Hq&_). rewrite Hq, inbox_In. split.
    + intros [H|H]; [auto|]. left. right. split; auto.
    + intros [[H|[_ H]]|(w&Hw&H)]; auto. destruct (HD w Hw) as (_&_&_&_&_&_&_&Ho&_). rewrite Ho in H. contradiction.
  - intros c. destruct (HD (own c) (Hown c)) as (_&_&_&_&_&_&_&_&Hc&_). rewrite Hc. apply (r_log _ _ HR).
Qed.

Variable L : N.
Hypothesis HL : 0 < L.
Hypothesis Hlat : forall l, remote M own l = true -> L <= m_lat M l.

Lemma look lb : forall l u d, remote M own l = true -> lb <= u -> before (u + d + m_lat M l) (Some (lb + L)) = false.
Proof. intros l u d Hr Hu. specialize (Hlat l Hr). simpl. lia. Qed.

Definition G (lb : N) (s : wstate) (sys : nat -> wstate) : Prop :=
  R s (fun w => forget_ipc (sys w)) /\ PS (fun _ => s) /\ PP lb (Some (lb + L)) (fun w => forget_ipc (sys w)) /\
  (forall w, (w < n)%nat -> w_out (sys w) = []).

Lemma run_events_loop f h (s : wstate) : run_events M own f h s = loop M own f h (forget_ipc s).
Proof. reflexivity. Qed.

Lemma bounded_fuel (Q : nat -> nat -> Prop) N0 :
  (forall w, (w < N0)%nat -> exists m, Q w m) -> (forall w m m', (m <= m')%nat -> Q w m -> Q w m') ->
  exists m, forall w, (w < N0)%nat -> Q w m.
Proof.
  intros He Hm. induction N0 as [|N0 IH]; [exists 0%nat; intros; lia|].
  destruct IH as (m&IHm); [intros; apply He; lia|]. destruct (He N0 ltac:(lia)) as (m'&Hm').
  exists (m + m')%nat. intros w Hw. destruct (Nat.eq_dec w N0) as [->|Hne].
  - eapply Hm; [|exact Hm']. lia.
  - eapply Hm; [|apply IHm; lia]. lia.
Qed.

(** What one window does to related states. *)
Lemma window_fwd lb s sys k s' :
  G lb s sys -> loop M own0 k (Some (lb + L)) s = Some s' ->
  exists f0 sys' lb', (forall f, (f0 <= f)%nat -> exists sysf, window M own f n (Some (lb + L)) sys = Some (sysf, lb') /\
       forall w, (w < n)%nat -> sysf w = sys' w) /\
    match lb' with
    | Some t => G t s' sys' /\ wstep M own0 (Some (t + L)) s' <> None
    | None => R s' sys' /\ w_queue s' = []
    end.
Proof.
  intros (HR&HS&HP&Hout) Hl.
  destruct (window_R lb (lb + L) k s _ s' (look lb) HR HS HP Hl) as (sys1&Hloops&HR1&HS1&HP1&Hq1).
  destruct (bounded_fuel (fun w m => loop M own m (Some (lb + L)) (forget_ipc (sys w)) = Some (sys1 w)) n) as (f0&Hf0).
  { intros w Hw. apply Hloops; auto. }
  { intros w m m' Hle. now apply loop_mono. }
  exists f0, (deliver M own n sys1), (omin_list (map (fun w => vote (sys1 w)) (seq 0 n))).
  assert (Hatt : forall w, (w < n)%nat -> att (sys1 w)).
  { intros w Hw. destruct (Hloops w Hw) as (m&Hm). eapply loop_att; [|exact Hm]. intros x Hx. discriminate. }
  split.
  { intros f Hf. unfold window.
    assert (Hres : forall w, (w < n)%nat -> run_events M own f (Some (lb + L)) (sys w) = Some (sys1 w)).
    { intros w Hw. rewrite run_events_loop. eapply loop_mono; [exact Hf|]. auto. }
    replace (forallb _ (seq 0 n)) with true.
    2:{ symmetry. apply forallb_forall. intros w Hw. apply in_seq in Hw. rewrite Hres by lia. auto. }
    eexists. split.
    - f_equal. f_equal. f_equal. apply map_ext_in. intros w Hw. apply in_seq in Hw. rewrite Hres by lia. auto.
    - intros w Hw. simpl. apply deliver_ext; auto. intros x Hx. now rewrite Hres. }
  destruct (omin_list (map (fun w => vote (sys1 w)) (seq 0 n))) as [t|] eqn:Ev.
  - split.
    + split; [|split; [exact HS1|split]].
      * eapply deliver_R; eauto. discriminate.
      * eapply sync_PInv; eauto.
      * intros w Hw. destruct (deliver_spec M own n Hown lb _ sys1 w HP1 Hw) as (_&_&_&_&_&_&_&Ho&_); [discriminate|auto].
    + (* the minimum is the time of some pending event *)
      assert (Hex : exists e, In e (w_queue s') /\ e_time e = t).
      { apply omin_list_att in Ev. apply in_map_iff in Ev as (w&Hv&Hw). apply in_seq in Hw.
        assert (Hw' : (w < n)%nat) by lia.
        unfold vote in Hv. destruct (w_queue (sys1 w)) as [|x r] eqn:Eq.
        - destruct (Hatt w Hw' t Hv) as (e&He&Ht). exists e. split; auto. apply (r_q _ _ HR1). right. eauto.
        - apply omin_att in Hv as [Hv|Hv].
          + destruct (Hatt w Hw' t Hv) as (e&He&Ht). exists e. split; auto. apply (r_q _ _ HR1). right. eauto.
          + injection Hv as Hv. exists x. split; auto. apply (r_q _ _ HR1). left.
            destruct (pi_q _ _ _ _ _ _ HP1 w x Hw') as (_&_&Hd&_); [rewrite Eq; simpl; auto|].
            rewrite Hd, Eq. simpl; auto. }
      destruct Hex as (e&He&Ht). unfold wstep.
      pose proof (pi_sorted _ _ _ _ _ _ HS1 0%nat ltac:(lia)) as HsS. simpl in HsS.
      destruct (w_queue s') as [|x r]; [contradiction|].
      pose proof (sorted_min_time _ _ _ HsS He). simpl.
      replace (e_time x <? t + L) with true by lia. discriminate.
  - assert (HRd := deliver_R lb (Some (lb + L)) s' sys1 HR1 HP1 ltac:(discriminate)).
    split.
    + constructor; [apply (r_comp _ _ HRd)|apply (r_seq _ _ HRd)|apply (r_q _ _ HRd)|apply (r_log _ _ HRd)].
    + destruct (w_queue s') as [|x r] eqn:Eq; auto. exfalso.
      assert (Hin : In x (w_queue s')) by (rewrite Eq; simpl; auto).
      assert (Hnone : forall w, (w < n)%nat -> vote (sys1 w) = None).
      { intros w Hw. eapply omin_list_None; [exact Ev|]. apply in_map_iff. exists w. split; auto. apply in_seq. lia. }
      apply (r_q _ _ HR1) in Hin as [Hin|(w&Hw&Hin)].
      * set (w := own (m_dst M (e_link x))) in *. specialize (Hnone w (Hown _)). unfold vote in Hnone.
        destruct (w_queue (sys1 w)); [contradiction|]. apply omin_None in Hnone as [_ H]. discriminate.
      * destruct (pi_out _ _ _ _ _ _ HP1 _ _ Hw Hin) as (_&_&_&_&_&m&Hm&_).
        destruct (vote_ipc own n Hown _ _ Hm) as (k0&Hk0&_). rewrite Hnone in Hk0 by auto. discriminate.
Qed.

Lemma window_mono f f' h sys r : (f <= f')%nat -> window M own f n h sys = Some r -> 
  exists sysf, window M own f' n h sys = Some (sysf, snd r) /\ forall w, (w < n)%nat -> sysf w = fst r w.
Proof.
  intros Hle H. unfold window in *.
  destruct (forallb _ (seq 0 n)) eqn:E; [|discriminate]. injection H as <-.
  rewrite forallb_forall in E.
  assert (Hres : forall w, (w < n)%nat -> run_events M own f' h (sys w) = run_events M own f h (sys w)).
  { intros w Hw. specialize (E w ltac:(apply in_seq; lia)). rewrite !run_events_loop in *.
    destruct (loop M own f h (forget_ipc (sys w))) eqn:El; [|discriminate]. eapply loop_mono; eauto. }
  replace (forallb _ (seq 0 n)) with true.
  2:{ symmetry. apply forallb_forall. intros w Hw. specialize (E w Hw). apply in_seq in Hw. rewrite Hres by lia. exact E. }
  eexists. split.
  - f_equal. f_equal. simpl. f_equal. apply map_ext_in. intros w Hw. apply in_seq in Hw. rewrite Hres by lia. auto.
  - intros w Hw. simpl. apply deliver_ext; auto. intros x Hx. now rewrite Hres.
Qed.

Definition same_sys (a b : nat -> wstate) := forall w, (w < n)%nat -> a w = b w.

Lemma G_ext lb s sys sys' : same_sys sys sys' -> G lb s sys -> G lb s sys'.
Proof.
  intros He (HR&HS&HP&Ho). split; [|split; [auto|split]].
  - eapply R_ext; [|exact HR]. intros w Hw. simpl. now rewrite He.
  - eapply PInv_ext; [exact Hown| |exact HP]. intros w Hw. simpl. now rewrite He.
  - intros w Hw. rewrite <- He by auto. auto.
Qed.

Lemma par_cong f : forall lb a b r, same_sys a b -> par_loop M own f n L lb a = Some r ->
  exists r', par_loop M own f n L lb b = Some r' /\ same_sys r r'.
Proof.
  induction f as [|f IH]; intros lb a b r Hab H; [discriminate|]. simpl in *.
  destruct lb as [t|]; [|injection H as <-; eauto].
  destruct (window M own (Datatypes.S f) n (Some (t + L)) a) as [[a' lb']|] eqn:Ew; [|discriminate].
  assert (Hwb : exists b', window M own (Datatypes.S f) n (Some (t + L)) b = Some (b', lb') /\ same_sys a' b').
  { unfold window in *. destruct (forallb _ (seq 0 n)) eqn:E; [|discriminate]. injection Ew as <- <-.
    rewrite forallb_forall in E.
    replace (forallb _ (seq 0 n)) with true.
    2:{ symmetry. apply forallb_forall. intros w Hw. specialize (E w Hw). apply in_seq in Hw. rewrite <- Hab by lia. exact E. }
    eexists. split.
    - f_equal. f_equal. f_equal. apply map_ext_in. intros w Hw. apply in_seq in Hw. rewrite <- Hab by lia. auto.
    - intros w Hw. apply deliver_ext; auto. intros x Hx. now rewrite Hab. }
  destruct Hwb as (b'&->&Hab'). eapply IH; eauto.
Qed.

Definition par_ok lb sys sf := exists f0, forall f, (f0 <= f)%nat ->
  exists sysf, par_loop M own f n L lb sys = Some sysf /\ R sf sysf.

Lemma par_glue k1 k2 lb s sys s1 sf :
  G lb s sys -> loop M own0 k1 (Some (lb + L)) s = Some s1 -> loop M own0 k2 None s1 = Some sf ->
  (forall t sys', G t s1 sys' -> wstep M own0 (Some (t + L)) s1 <> None -> par_ok (Some t) sys' sf) ->
  par_ok (Some lb) sys sf.
Proof.
  intros HG H1 H2 Hnext.
  destruct (window_fwd lb s sys k1 s1 HG H1) as (f0&sys'&lb'&Hwin&Hcase).
  destruct lb' as [t|].
  - destruct Hcase as [HG' Hp'].
    destruct (Hnext t sys' HG' Hp') as (f1&Hf1).
    exists (Datatypes.S (f0 + f1)). intros f Hf. destruct f as [|f]; [lia|].
    destruct (Hwin (Datatypes.S f) ltac:(lia)) as (sysf&Hw&He).
    simpl. rewrite Hw.
    destruct (Hf1 f ltac:(lia)) as (sf1&Hs1&HR1).
    destruct (par_cong f (Some t) sys' sysf sf1) as (r'&Hr'&Hsame); auto.
    { intros w Hw0. symmetry. auto. }
    exists r'. split; auto. eapply R_ext; [|exact HR1]. exact Hsame.
  - destruct Hcase as [HR' Hq'].
    assert (sf = s1).
    { destruct k2 as [|k2]; [discriminate|]. simpl in H2. unfold wstep in H2. rewrite Hq' in H2. congruence. }
    subst sf. exists (Datatypes.S (Datatypes.S f0)). intros f Hf. destruct f as [|f]; [lia|].
    destruct (Hwin (Datatypes.S f) ltac:(lia)) as (sysf&Hw&He).
    simpl. rewrite Hw. destruct f as [|f]; [lia|]. simpl. exists sysf. split; auto.
    eapply R_ext; [|exact HR']. intros w Hw0. symmetry. auto.
Qed.

Lemma par_fwd k : forall lb s sys sf,
  G lb s sys -> wstep M own0 (Some (lb + L)) s <> None -> loop M own0 k None s = Some sf ->
  par_ok (Some lb) sys sf.
Proof.
  induction k as [k IHk] using lt_wf_ind. intros lb s sys sf HG Hprog Hl.
  destruct (loop_split own0 (Some (lb + L)) k s sf Hl) as (k1&s1&k2&H1&H2&_&Hlt).
  eapply par_glue; eauto.
Qed.

(** From the parallel run back to the serial one. *)
Lemma par_bwd f : forall lb s sys sysf,
  G lb s sys -> par_loop M own f n L (Some lb) sys = Some sysf ->
  exists k sf, loop M own0 k None s = Some sf /\ R sf sysf.
Proof.
  induction f as [|f IH]; intros lb s sys sysf HG H; [discriminate|].
  simpl in H. destruct (window M own (Datatypes.S f) n (Some (lb + L)) sys) as [[sys1 lb1]|] eqn:Ew; [|discriminate].
  assert (Hk : exists k s', loop M own0 k (Some (lb + L)) s = Some s').
  { destruct HG as (HR&HS&HP&Hout).
    eapply (window_R_conv lb (lb + L) _ (fun _ => Datatypes.S f) s _ (look lb) HR HS HP); [|apply le_n].
    intros w Hw. unfold window in Ew. destruct (forallb _ (seq 0 n)) eqn:E; [|discriminate].
    rewrite forallb_forall in E. specialize (E w ltac:(apply in_seq; lia)). rewrite run_events_loop in E.
    destruct (loop M own (Datatypes.S f) (Some (lb + L)) (forget_ipc (sys w))); [eauto|discriminate]. }
  destruct Hk as (k&s'&Hk).
  destruct (window_fwd lb s sys k s' HG Hk) as (f0&sys'&lb'&Hwin&Hcase).
  destruct (window_mono (Datatypes.S f) (Datatypes.S f + f0)%nat _ _ _ (Nat.le_add_r _ _) Ew) as (sysA&HA&HsA). simpl in HsA.
  destruct (Hwin (Datatypes.S f + f0)%nat ltac:(lia)) as (sysB&HB&HsB).
  rewrite HB in HA. injection HA as <- ->. simpl in Hcase.
  assert (Hsame : same_sys sys' sys1) by (intros w Hw; rewrite <- HsA, <- HsB; auto).
  destruct lb1 as [t|].
  - destruct Hcase as [HG' _].
    destruct (IH t s' sys1 sysf) as (k2&sf&Hk2&HRf); auto.
    { eapply G_ext; [|exact HG']. exact Hsame. }
    exists (k + k2)%nat, sf. split; auto. eapply loop_join; eauto.
  - destruct Hcase as [HR' Hq']. destruct f as [|f]; [discriminate|]. simpl in H. injection H as <-.
    exists (k + 1)%nat, s'. split.
    + eapply loop_join; [exact Hk|]. simpl. unfold wstep. now rewrite Hq'.
    + eapply R_ext; [|exact HR']. exact Hsame.
Qed.

(** ** Start of the simulation *)
Lemma boot_G comp0 boot :
  Forall (fun x => remote M own (s_link x) = false) boot ->
  G 0 (forget_ipc (do_sends M own0 (init_w comp0) boot)) (boot_w M own comp0 boot).
Proof.
  intros Hloc.
  assert (Hgen : forall ss s sys, R s sys -> PS (fun _ => s) -> PP 0 (Some (0 + L)) sys ->
       w_now s = 0 -> (forall w, (w < n)%nat -> w_now (sys w) = 0) ->
       R (do_sends M own0 s ss)
         (fun w => do_sends M own (sys w) (filter (fun x => Nat.eqb (own (m_src M (s_link x))) w) ss)) ).
  { induction ss as [|x ss IH]; intros s sys HR HS HP Hn Hns; simpl; [exact HR|].
    set (w := own (m_src M (s_link x))).
    assert (Hw : (w < n)%nat) by apply Hown.
    destruct (send_R 0 (Some (0 + L)) s sys w x (look 0) HR HS HP Hw eq_refl) as (HR1&HS1&HP1&Hn1&Hn2).
    { rewrite Hn, Hns; auto. } { lia. }
    specialize (IH _ _ HR1 HS1 HP1).
    eapply R_ext; [|apply IH].
    - intros y Hy. simpl. unfold EvSpec.sysupd. rewrite (Nat.eqb_sym w y).
      destruct (Nat.eqb y w) eqn:E; simpl; auto. apply Nat.eqb_eq in E. subst y. reflexivity.
    - rewrite Hn1. auto.
    - intros y Hy. unfold EvSpec.sysupd. destruct (Nat.eqb y w) eqn:E; auto. rewrite Hn2. auto. }
  assert (HP0 : PP 0 (Some (0 + L)) (fun _ => init_w comp0)).
  { apply empty_PInv; [exact Hown|]. intros t Ht. injection Ht as <-. lia. }
  assert (HS0 : PS (fun _ => init_w comp0)) by (apply empty_PInv; [exact own01|discriminate]).
  specialize (Hgen boot (init_w comp0) (fun _ => init_w comp0)).
  assert (HR0 : R (init_w comp0) (fun _ => init_w comp0)).
  { constructor; simpl; auto. intros e. split; [contradiction|]. intros [[]|(w&_&[])]. }
  specialize (Hgen HR0 HS0 HP0 eq_refl (fun _ _ => eq_refl)).
  destruct (boot_PInv M own n Hown comp0 boot (Some (0 + L))) as [HPb Hb]; auto.
  { intros t Ht. injection Ht as <-. lia. }
  { apply (look 0). }
  destruct (SInv_init M comp0 boot) as (HPS&_).
  split; [|split; [exact HPS|split; [exact HPb|]]].
  - constructor; simpl.
    + apply (r_comp _ _ Hgen). + apply (r_seq _ _ Hgen). + apply (r_q _ _ Hgen). + apply (r_log _ _ Hgen).
  - intros w Hw. destruct (Hb w Hw); auto.
Qed.

Definition agree (s : wstate) (sys : nat -> wstate) : Prop :=
  forall c, w_comp s c = w_comp (sys (own c)) c /\
    seen_by M c (history s) = seen_by M c (history (sys (own c))).

Lemma filter_rev {A} (f : A -> bool) l : filter f (rev l) = rev (filter f l).
Proof.
  induction l as [|a l IH]; simpl; auto. rewrite filter_app, IH. simpl. destruct (f a); simpl; auto.
  now rewrite app_nil_r.
Qed.

Lemma R_agree s sys : R s sys -> agree s sys.
Proof.
  intros HR c. split; [apply (r_comp _ _ HR)|]. unfold history, seen_by. rewrite !filter_rev. f_equal.
  apply (r_log _ _ HR).
Qed.

Theorem par_run_serial comp0 boot f sys :
  Forall (fun x => remote M own (s_link x) = false) boot ->
  par_run M own f n L comp0 boot = Some sys ->
  exists k s, serial_run M k comp0 boot = Some s /\ agree s sys.
Proof.
  intros Hloc H. destruct (par_bwd f 0 _ _ sys (boot_G comp0 boot Hloc) H) as (k&s&Hk&HR).
  exists k, s. split; [exact Hk|]. now apply R_agree.
Qed.

Theorem serial_par_run comp0 boot k s :
  Forall (fun x => remote M own (s_link x) = false) boot ->
  serial_run M k comp0 boot = Some s ->
  exists f sys, par_run M own f n L comp0 boot = Some sys /\ agree s sys.
Proof.
  intros Hloc H. pose proof (boot_G comp0 boot Hloc) as HG.
  change (loop M own0 k None (forget_ipc (do_sends M own0 (init_w comp0) boot)) = Some s) in H.
  destruct (loop_split own0 (Some (0 + L)) k _ s H) as (k1&s1&k2&H1&H2&_&_).
  destruct (par_glue k1 k2 0 _ _ s1 s HG H1 H2) as (f&Hf).
  - intros t sys' HG' Hp'. eapply par_fwd; eauto.
  - destruct (Hf f (le_n _)) as (sysf&Hr&HR). exists f, sysf. split; auto. now apply R_agree.
Qed.
End Par.
