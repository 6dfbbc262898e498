(* Messages move on without faults, and the invariant is kept. *)
From Coq Require Import List ZArith Bool Arith Lia Permutation.
From Verif Require Import DtModel DtSpec DtProof PdModel PdSpec PdHeap PdInv.
Import ListNotations.
Local Open Scope Z_scope.

Section Move.
Variable c : pcfg.
Variable user : nat -> mem Z.

Record dinv (h : list pobs) (H : hp) : Prop := {
  d_done : forall r f out, In (ORecvDone r f out) h -> exists b1 d1 n1 src b2 d2 n2 dst,
    In (OSend f b1 d1 n1 src) h /\ In (ORecv r b2 d2 n2 dst) h /\ received d1 n1 src d2 dst out;
  d_replay : forall b, ~ receiving b h -> forall x, hp_user H b x = replay user h b x }.

Record inv (h : list pobs) (s : pst) : Prop := {
  i_m : minv c h (s_hp s) (s_items s) (s_posted s) (s_recvs s);
  i_l : linv c h (s_items s) (s_posted s) (s_sends s) (s_recvs s) (s_flow s) (s_req s);
  i_d : dinv h (s_hp s) }.

(* The buffer of an open request is not used by anything else. *)
Lemma buffer_apart : forall h H its posted Sd R fl rq q0 b0 d n dst, minv c h H its posted R ->
  linv c h its posted Sd R fl rq -> obeys h ->
  In (ORecv (q_id q0) b0 d n dst) h -> (forall f out, ~ In (ORecvDone (q_id q0) f out) h) ->
  (forall x, In x its -> (forall q, getter x = true -> In (fid x, q) R -> q_id q <> q_id q0) ->
     forall b, uses c h R x b -> b <> b0) /\
  (forall q b d n dst, In q posted -> q_id q <> q_id q0 -> target h q b d n dst -> b <> b0).
Proof.
  intros h H its posted Sd R fl rq q0 b0 d n dst M L O I N. split.
  - intros x X D b [(CA & d' & n' & src & S)|(G & q & Q & F)] ->.
    + apply (obeys_apart h b0 O); [|exists (q_id q0), d, n, dst; auto].
      exists (fid x), d', n', src. split; [exact S|]. apply (l_open _ _ _ _ _ _ _ _ L).
      eapply Permutation_in; [apply (l_carry _ _ _ _ _ _ _ _ L)|]. apply ids_in. eauto.
    + apply (D q G Q). pose proof (m_items _ _ _ _ _ _ M x X) as (b & d1 & n1 & src & _ & _ & _ & _ & B).
      assert (T : for_req h R (snd x) d1 n1 (fun _ _ _ _ _ => True)).
      { unfold getter, body in *. destruct (g_prot (snd x)); try discriminate. destruct (g_ty (snd x)); try discriminate.
        - destruct B as (_ & _ & _ & _ & _ & _ & B). destruct B as (q1 & b2 & d2 & n2 & dst2 & B).
          exists q1, b2, d2, n2, dst2. tauto.
        - destruct B as (_ & _ & _ & _ & B). destruct (fst x); [destruct (g_path (snd x))| |];
            first [solve [destruct B as (_ & q1 & b2 & d2 & n2 & dst2 & B); exists q1, b2, d2, n2, dst2; tauto]
                  |solve [destruct B as (_ & _ & q1 & b2 & d2 & n2 & dst2 & B); exists q1, b2, d2, n2, dst2; tauto]]. }
      destruct T as (q1 & b2 & d2 & n2 & dst2 & Q1 & (T1 & T2 & T3 & T4) & _).
      pose proof (getters_nodup _ _ _ _ _ _ _ _ L) as GN.
      assert (q1 = q) by (apply (find_recv_in _ _ _ GN) in Q; apply (find_recv_in _ _ _ GN) in Q1; unfold fid in *; congruence).
      subst q1. assert (b2 = b0) by congruence. subst b2.
      eapply (obeys_one h b0); eauto. apply (l_ropen _ _ _ _ _ _ _ _ L). right. now apply (in_map snd) in Q.
  - intros q b d' n' dst' Q D (T & _) ->. apply D. eapply (obeys_one h b0); eauto.
    apply (l_ropen _ _ _ _ _ _ _ _ L). now left.
Qed.

Lemma dinv_same : forall h H H', dinv h H -> (forall b, ~ receiving b h -> hp_user H' b = hp_user H b) -> dinv h H'.
Proof. intros h H H' [A B] E. constructor; [exact A|]. intros b N x. rewrite E by exact N. auto. Qed.

Lemma inv_perm : forall h s its posted, Permutation (s_items s) its -> Permutation (s_posted s) posted -> inv h s ->
  minv c h (s_hp s) its posted (s_recvs s) /\ linv c h its posted (s_sends s) (s_recvs s) (s_flow s) (s_req s) /\ dinv h (s_hp s).
Proof.
  intros h s its posted P Q [M L D]. split; [|split]; [|eapply linv_perm; eauto|exact D]. eapply minv_perm; eauto.
Qed.

(* Messages change, nothing is observed *)
Lemma case_same : forall h s it rest its H', inv h s -> obeys h -> Permutation (s_items s) (it :: rest) ->
  keeps (own it) (s_hp s) H' -> (hp_next (s_hp s) <= hp_next H')%nat -> unborn H' ->
  (forall x, In x its -> okm c h H' (s_recvs s) x) -> NoDup (flat_map own its) ->
  (forall k, In k (flat_map own its) -> In k (own it) \/ (hp_next (s_hp s) <= k < hp_next H')%nat) ->
  same_kind c [it] its ->
  hp_user H' = hp_user (s_hp s) \/
    (exists q b0 d n dst, getter it = true /\ In (fid it, q) (s_recvs s) /\ target h q b0 d n dst /\ other_users b0 (s_hp s) H') ->
  inv h (set_items s H' (its ++ rest)).
Proof.
  intros h s it rest its H' I O P K LE U OK ND OW SK US.
  destruct (inv_perm h s (it :: rest) (s_posted s) P (Permutation_refl _) I) as (M & L & D).
  assert (UU : (forall x, In x rest -> forall b, uses c h (s_recvs s) x b -> hp_user H' b = hp_user (s_hp s) b) /\
    (forall q b d n dst, In q (s_posted s) -> target h q b d n dst -> hp_user H' b = hp_user (s_hp s) b) /\
    (forall b, ~ receiving b h -> hp_user H' b = hp_user (s_hp s) b)).
  { destruct US as [E|(q & b0 & d & n & dst & G & Q & T & OU)]; [rewrite E; auto|].
    assert (OP : forall f out, ~ In (ORecvDone (q_id q) f out) h).
    { apply (l_ropen _ _ _ _ _ _ _ _ L). right. now apply (in_map snd) in Q. }
    destruct (buffer_apart h (s_hp s) (it :: rest) (s_posted s) _ _ _ _ q b0 d n dst M L O (proj1 T) OP) as (A & B).
    assert (RI : forall f' q', In (f', q') (s_recvs s) -> f' <> fid it -> q_id q' <> q_id q).
    { intros f' q' J N E. pose proof (l_rids _ _ _ _ _ _ _ _ L) as NR. apply NoDup_app_iff in NR. destruct NR as (_ & NR & _).
      apply in_split in J. destruct J as (l1 & l2 & EE). rewrite EE in NR, Q. rewrite map_app in NR. cbn [map snd] in NR.
      apply NoDup_remove in NR. destruct NR as (_ & NR). apply NR.
      assert (J : In (fid it, q) (l1 ++ l2)). { apply in_app_or in Q. destruct Q as [Q|[Q|Q]]; [apply in_or_app; auto|congruence|apply in_or_app; auto]. }
      rewrite <- map_app, E. apply (in_map (fun e => q_id (snd e))) in J. exact J. }
    split; [|split].
    - intros x X b UB. apply OU. apply (A x); [now right| |exact UB]. intros q' GX Q'. apply (RI (fid x) q' Q').
      intros E. pose proof (l_main _ _ _ _ _ _ _ _ L) as ML. rewrite ids_cons in ML.
      rewrite (l_sub _ _ _ _ _ _ _ _ L it) in ML by (auto; now left). cbn [app] in ML. apply NoDup_cons_iff in ML.
      apply (proj1 ML). rewrite <- E. apply ids_in. exists x. split; [exact X|]. split; [|reflexivity].
      apply (l_sub _ _ _ _ _ _ _ _ L); [now right|auto].
    - intros q' b d' n' dst' Q' T'. apply OU. apply (B q' b d' n' dst' Q'); [|exact T'].
      intros E. pose proof (l_rids _ _ _ _ _ _ _ _ L) as NR. apply NoDup_app_iff in NR. destruct NR as (_ & _ & NR).
      apply (NR (q_id q')); [now apply in_map|]. rewrite E. apply (in_map (fun e => q_id (snd e))) in Q. exact Q.
    - intros b N. apply OU. intros ->. apply N. exists (q_id q), d, n, dst. split; [apply T|exact OP]. }
  destruct UU as (U1 & U2 & U3). constructor; cbn.
  - eapply (minv_step c h h (s_hp s) H' [it] its rest [] (s_posted s)); eauto.
    + intros e; auto.
    + cbn. now rewrite !app_nil_r.
    + intros k J. cbn. rewrite !app_nil_r. auto.
  - eapply (linv_same c h [it]); eauto.
  - eapply dinv_same; eauto.
Qed.

Ltac kinds :=
  unfold same_kind, ids, main, carrier, getter, waiting, fid; cbn;
  split; [reflexivity|]; split; [try reflexivity; destruct (c_soft c); reflexivity|]; split; [reflexivity|]; split;
  [let x := fresh "z" in let X := fresh "Z" in intros x X; repeat (destruct X as [<-|X]; [eexists; split; [now left|]; cbn; split; [reflexivity|try discriminate; auto]|]); destruct X
  |let x := fresh "z" in let X := fresh "Z" in intros x X; repeat (destruct X as [<-|X]; [cbn; intros [Y|Y]; solve [reflexivity|discriminate]|]); destruct X].
Ltac one := let x := fresh "z" in let X := fresh "Z" in intros x X;
  match type of X with In _ _ => idtac end; cbn in X; repeat match type of X with _ \/ _ => destruct X as [<-|X] end; try contradiction.

Lemma keeps_refl : forall ks H, keeps ks H H.
Proof. intros ks H k _ _. reflexivity. Qed.

Lemma full_lt : forall H d n src p, unborn H -> full H d n src p -> exists k, p = Temp k /\ (k < hp_next H)%nat.
Proof. intros H d n src p U (k & m & -> & E & _). exists k. split; [reflexivity|]. eapply unborn_lt; eauto. Qed.

Lemma full_open : forall H d n src p, full H d n src p -> exists k, p = Temp k.
Proof. intros H d n src p (k & m & E & _). eauto. Qed.
Lemma room_open : forall H sz p, room H sz p -> exists k, p = Temp k.
Proof. intros H sz p (k & m & E & _). eauto. Qed.
Ltac open F k := first [destruct (full_open _ _ _ _ _ F) as (k & ->) | destruct (room_open _ _ _ F) as (k & ->)].
Ltac okay b d n src := exists b, d, n, src; unfold body, nobuf; cbn; repeat (split; [solve [auto|discriminate|lia]|]); auto.
Ltac lists := cbn in *; intros; repeat match goal with
  | H : _ \/ _ |- _ => destruct H
  | H : False |- _ => destruct H
  | H : In _ (_ :: _) |- _ => destruct H
  | H : In _ [] |- _ => destruct H
  | H : ~ In _ (_ :: _) |- _ => apply not_in_cons in H; destruct H
  | H : NoDup (_ :: _) |- _ => apply NoDup_cons_iff in H; destruct H
  | |- NoDup (_ :: _) => constructor
  | |- NoDup [] => constructor
  | |- ~ _ => intro
  end; subst; try solve [now auto|lia|right; lia|congruence].

Ltac proj := cbn [fst snd with_bufs to_payload g_prot g_path g_ty g_stage g_count g_tsize g_len g_pay g_ack g_smsg g_wire g_local g_remote g_partner g_id].
Ltac easycase b d n src := first [solve [kinds]|solve [lists]|solve [one; okay b d n src]|idtac].

Lemma arrive_ok : forall h s m rest, inv h s -> obeys h -> Permutation (s_items s) ((Net, m) :: rest) ->
  exists its H', arrive c m (s_hp s) = Some (its, H') /\ inv h (set_items s H' (its ++ rest)).
Proof.
  intros h s m rest I O P.
  destruct (inv_perm h s _ (s_posted s) P (Permutation_refl _) I) as (M & L & D).
  pose proof (m_unborn _ _ _ _ _ _ M) as U.
  pose proof (m_own _ _ _ _ _ _ M) as NO. cbn [flat_map] in NO. rewrite <- app_assoc in NO. apply NoDup_app_iff in NO. destruct NO as (NO & _).
  assert (OL : forall k, In k (own (Net, m)) -> (k < hp_next (s_hp s))%nat).
  { intros k K. apply (m_lt _ _ _ _ _ _ M). cbn [flat_map]. rewrite !in_app_iff. auto. }
  pose proof (m_items _ _ _ _ _ _ M (Net, m) (or_introl eq_refl)) as (b & d & n & src & S & C & T & PR & B).
  assert (CS := case_same h s (Net, m) rest). 
  destruct m as [f pr pa ty st ct ts len pay ack sm wi lo re pt]. unfold body, nobuf in B. unfold fid in S. cbn [fst snd g_prot g_path g_ty g_stage g_count g_tsize g_len g_pay g_ack g_smsg g_wire g_local g_remote g_partner g_id] in *.
  destruct pr, ty; try contradiction.
  - (* eager0 data *)
    destruct B as (-> & -> & -> & B). destruct pa.
    1, 2: destruct B as (-> & F); destruct (wire_ok c _ _ _ _ _ (full_holds _ _ _ _ _ F) U) as (H' & W & F' & EU & EN & K & U');
      cbn; rewrite W; eexists _, _; (split; [reflexivity|]); apply CS; auto; try lia; easycase b d n src; intros k Hk _; apply K; cbn; auto.
    destruct B as (-> & F). open F x. cbn. eexists _, _. split; [reflexivity|]. apply CS; auto using keeps_refl; easycase b d n src.
  - (* eager0 ack *)
    destruct B as (_ & B). destruct pa; cbn; eexists _, _; (split; [reflexivity|]); apply CS; auto using keeps_refl; easycase b d n src.
  - (* eager1 header *)
    destruct B as (_ & (-> & ->) & -> & F). open F x.
    destruct pa; cbn; eexists _, _; (split; [reflexivity|]); apply CS; auto using keeps_refl; easycase b d n src.
  - (* eager1 get request *)
    destruct B as (_ & -> & (-> & ->) & -> & -> & F & RM).
    destruct (wire_ok c _ _ _ _ _ (full_holds _ _ _ _ _ F) U) as (H' & W & F' & EU & EN & K & U').
    open F x. open RM x0.
    assert (LX : (x < hp_next (s_hp s))%nat) by (apply OL; cbn; auto).
    assert (LX0 : (x0 < hp_next (s_hp s))%nat) by (apply OL; cbn; auto). unfold arrive. proj. rewrite W. eexists _, _; (split; [reflexivity|]). apply CS; auto; try lia.
    + intros k Hk _. apply K; auto.
    + assert (KK : forall k, In k (tmp (Temp x) ++ tmp (Temp x0)) -> hp_heap H' k = hp_heap (s_hp s) k).
      { intros k Hk. apply K; auto. }
      one; okay b d n src.
      * apply (room_keep (s_hp s)); [exact RM|]. intros. apply KK. apply in_or_app. now right.
      * eapply room_keep; [eapply full_room; eauto|]. intros. apply KK. apply in_or_app. now left.
    + lists.
    + lists.
    + kinds.
  - (* eager1 payload *)
    destruct B as (-> & -> & -> & B). destruct pa.
    1, 2: destruct B as (-> & F & RM); destruct RM as (k2 & m0 & -> & E0);
      destruct (copy_temp _ k2 _ _ re d n src E0 (Z.le_refl _) (full_holds _ _ _ _ _ F) U) as (H' & m1 & W & E1 & P1 & EU & EN & K & U');
      open F k1; unfold arrive; proj; rewrite W; eexists _, _; (split; [reflexivity|]); apply CS; auto; try lia;
      [ intros k Hk N; apply K; [exact Hk|]; cbn in *; tauto
      | one; okay b d n src; [exists k2, m1; auto|];
        apply (room_keep (s_hp s)); [eapply full_room; eauto|]; intros k [<-|[]]; apply K; [apply OL; now left|];
        intros [<-|[]]; lists
      | lists; apply H0; now left
      | lists
      | kinds ].
    destruct B as (F & RM). destruct RM as (k2 & m0 & -> & E0). open F k1.
    destruct (copy_temp _ k2 _ _ (Temp k1) d n src E0 (Z.le_refl _) (full_holds _ _ _ _ _ F) U) as (H1 & m1 & W & E1 & P1 & EU & EN & K & U').
    assert (NE : k1 <> k2) by (intros ->; lists).
    destruct F as (k & mm & EE & EH & _). injection EE as <-. rewrite <- (K k1) in EH; [|apply OL; now left|cbn; lia].
    destruct (free_ok _ _ _ EH U') as (H2 & FR & EU2 & EN2 & K2 & U2).
    unfold arrive. proj. rewrite W. rewrite FR. eexists _, _; (split; [reflexivity|]). apply CS; auto; try lia.
    + intros k Hk N. rewrite K2; [|lia|cbn in *; tauto]. apply K; [lia|cbn in *; tauto].
    + one. okay b d n src. exists k2, m1. rewrite K2; [auto| |cbn; lia]. eapply unborn_lt; eauto.
    + lists.
    + lists.
    + kinds.
    + left. congruence.
  - (* eager1 ack *)
    destruct B as (_ & (-> & ->) & RM). open RM k1.
    destruct pa; cbn; eexists _, _; (split; [reflexivity|]); apply CS; auto using keeps_refl; easycase b d n src.
  - (* rendezvous header or ack *)
    destruct B as ((-> & ->) & -> & B). destruct st as [|st].
    + destruct pa, pt; cbn; eexists _, _; (split; [reflexivity|]); apply CS; auto using keeps_refl; easycase b d n src.
    + destruct B as (_ & B).
      destruct pa; cbn; eexists _, _; (split; [reflexivity|]); apply CS; auto using keeps_refl; easycase b d n src.
  - (* rendezvous get request *)
    destruct B as (_ & -> & (-> & ->) & -> & -> & F & RM).
    destruct (wire_ok c _ _ _ _ _ (src_holds _ _ _ _ _ _ F) U) as (H' & W & F' & EU & EN & K & U').
    unfold arrive. proj. rewrite W. eexists _, _; (split; [reflexivity|]).
    assert (KK : forall k, In k (tmp lo) -> hp_heap H' k = hp_heap (s_hp s) k).
    { intros k Hk. apply K; auto. apply OL. cbn. rewrite !in_app_iff. auto. }
    apply CS; auto; try lia.
    + intros k Hk _. apply K; auto.
    + assert (RM' : forall m, g_id m = f -> g_local m = lo -> for_req h (s_recvs s) m d n (idle_q H')).
      { intros m EF EL. destruct RM as (q & b2 & d2 & n2 & dst & RM1 & RM2 & RM3 & RM4 & RM5 & RM6). cbn in RM1, RM5.
        exists q, b2, d2, n2, dst. rewrite EF, EL. repeat (split; [assumption|]).
        apply (idle_keep (s_hp s)); auto; [|now rewrite EU]. unfold ownq. now rewrite <- RM5. }
      unfold acks. cbn [with_bufs to_payload g_ack g_ty]. destruct (c_soft c) eqn:SO; cbn [negb]; one; exists b, d, n, src; unfold body, nobuf; cbn; rewrite ?SO;
        repeat (split; [solve [auto|discriminate]|]); auto.
    + unfold acks. cbn [with_bufs to_payload g_ack g_ty]. destruct (c_soft c); cbn [negb]; cbn; rewrite ?app_nil_r; destruct lo; cbn; repeat constructor; auto;
        intros [E|[]]; cbn in OL; assert (k < hp_next (s_hp s))%nat by (apply OL; rewrite in_app_iff; cbn; auto); lia.
    + unfold acks. cbn [with_bufs to_payload g_ack g_ty]. intros k Hk. cbn. rewrite !in_app_iff.
      destruct (c_soft c); cbn in Hk; rewrite ?app_nil_r in Hk; (destruct Hk as [<-|Hk]; [right; lia|auto]).
    + unfold acks. cbn [with_bufs to_payload g_ack g_ty]. unfold same_kind, ids, carrier. destruct (c_soft c); kinds.
  - (* rendezvous payload *)
    destruct B as (_ & -> & -> & -> & B). destruct pa.
    1, 2: destruct B as (-> & F & q & b2 & d2 & n2 & dst & RQ & TQ & BP & FI & EL & ID); cbn in EL; subst lo;
      destruct (copy_req _ re d n src q b2 d2 n2 dst ID FI (src_holds _ _ _ _ _ _ F) U) as (H' & W & FQ & OU & EN & K & U');
      unfold arrive; proj; rewrite W; eexists _, _; (split; [reflexivity|]);
      assert (KK : keeps (tmp re ++ tmp (q_recv q) ++ []) (s_hp s) H') by (intros k Hk N; apply K; [exact Hk|]; rewrite !in_app_iff in N; tauto);
      apply CS; auto; try lia;
      [ unfold acks; cbn [g_ack g_ty]; destruct (c_soft c) eqn:SO; cbn [negb]; one; exists b, d, n, src; unfold body, nobuf; cbn; rewrite ?SO;
        repeat (split; [solve [auto|discriminate]|]); auto; exists q, b2, d2, n2, dst; repeat (split; [solve [auto]|]); auto
      | unfold acks; cbn [g_ack g_ty]; cbn in NO; rewrite app_nil_r in NO; apply NoDup_app_iff in NO; destruct (c_soft c); cbn; rewrite ?app_nil_r; tauto
      | unfold acks; cbn [g_ack g_ty]; intros k Hk; cbn; rewrite !in_app_iff; destruct (c_soft c); cbn in Hk; rewrite ?app_nil_r in Hk; auto
      | unfold acks; cbn [g_ack g_ty]; unfold same_kind, ids, carrier; destruct (c_soft c); kinds
      | right; exists q, b2, d2, n2, dst; auto ].
    destruct B as (F & q & b2 & d2 & n2 & dst & RQ & TQ & BP & FI & EL & ID). cbn in EL. subst lo.
    destruct (copy_req _ wi d n src q b2 d2 n2 dst ID FI (full_holds _ _ _ _ _ F) U) as (H1 & W & FQ & OU & EN & K & U').
    open F k1. cbn in NO. apply NoDup_cons_iff in NO. destruct NO as (NE & NO). rewrite app_nil_r in NE.
    destruct F as (k & mm & EE & EH & _). injection EE as <-. rewrite <- (K k1) in EH; [|apply OL; now left|exact NE].
    destruct (free_ok _ _ _ EH U') as (H2 & FR & EU2 & EN2 & K2 & U2).
    unfold arrive. proj. rewrite W. rewrite FR. eexists _, _; (split; [reflexivity|]). apply CS; auto; try lia.
    + intros k Hk N. cbn in N. rewrite app_nil_r in N. rewrite K2; [|lia|cbn in *; tauto]. apply K; [lia|tauto].
    + one. okay b d n src. exists q, b2, d2, n2, dst. repeat (split; [assumption|]). split; [reflexivity|].
      apply (filled_keep H1); auto; [|now rewrite EU2]. intros k Hk. apply K2.
      * rewrite EN. apply OL. cbn. right. rewrite app_nil_r. exact Hk.
      * intros [<-|[]]. contradiction.
    + cbn. now rewrite ?app_nil_r in *.
    + intros k Hk. cbn in *. rewrite ?app_nil_r in *. auto.
    + kinds.
    + right. exists q, b2, d2, n2, dst. repeat (split; [now auto|]). intros b' N. rewrite EU2. now apply OU.
  - (* rendezvous ack *)
    destruct B as (_ & (-> & ->)).
    destruct pa; cbn; eexists _, _; (split; [reflexivity|]); apply CS; auto using keeps_refl; easycase b d n src.
Qed.

(* ---------- completions ---------- *)

Lemma receiving_cons : forall b e h, (forall r f out, e <> ORecvDone r f out) -> (forall r d n dst, e <> ORecv r b d n dst) ->
  receiving b (e :: h) <-> receiving b h.
Proof.
  intros b e h N1 N2. split; intros (r & d & n & dst & I & O); exists r, d, n, dst.
  - destruct I as [I|I]; [exfalso; eapply N2; eauto|]. split; [exact I|]. intros f out K. apply (O f out). now right.
  - split; [now right|]. intros f out [K|K]; [eapply N1; eauto|eapply O; eauto].
Qed.

Lemma dinv_plain : forall h H e, dinv h H -> match e with OSendDone _ | OMatch _ _ | OSend _ _ _ _ _ => True | _ => False end -> dinv (e :: h) H.
Proof.
  intros h H e [A B] E. constructor.
  - intros r f out [I|I]; [subst e; contradiction|]. destruct (A _ _ _ I) as (b1 & d1 & n1 & src & b2 & d2 & n2 & dst & X & Y & Z).
    exists b1, d1, n1, src, b2, d2, n2, dst. split; [now right|]. split; [now right|exact Z].
  - intros b N x. rewrite B.
    + destruct e; try contradiction; reflexivity.
    + intros K. apply N. apply receiving_cons; [| |exact K]; intros; intros ->; contradiction.
Qed.

Lemma buffer_of_in : forall r b d n dst h,
  (forall b d n dst b' d' n' dst', In (ORecv r b d n dst) h -> In (ORecv r b' d' n' dst') h -> b = b' /\ d = d' /\ n = n' /\ dst = dst') ->
  In (ORecv r b d n dst) h -> buffer_of r h = Some b.
Proof.
  intros r b d n dst h U I.
  assert (G : forall l, incl l h -> In (ORecv r b d n dst) l -> buffer_of r l = Some b).
  { induction l as [|e l IH]; intros IN J; [destruct J|]. cbn [buffer_of].
    assert (IN' : incl l h) by (intros y Y; apply IN; now right).
    destruct J as [->|J]; [now rewrite Nat.eqb_refl|]. specialize (IH IN' J).
    destruct e; try exact IH. destruct (Nat.eqb_spec r0 r) as [->|]; [|exact IH].
    destruct (U b d n dst b0 d0 n0 dst0 I) as (-> & _); [apply IN; now left|reflexivity]. }
  apply G; [intros y; auto|exact I].
Qed.

Lemma dinv_recv : forall h its posted Sd R fl rq H H' q b0 d n dst f out b1 d1 n1 src,
  dinv h H -> linv c h its posted Sd R fl rq -> In (ORecv (q_id q) b0 d n dst) h -> In (OSend f b1 d1 n1 src) h ->
  other_users b0 H H' -> (forall x, out x = hp_user H' b0 x) -> received d1 n1 src d dst out ->
  dinv (ORecvDone (q_id q) f out :: h) H'.
Proof.
  intros h its posted Sd R fl rq H H' q b0 d n dst f out b1 d1 n1 src [A B] L I J OU EO RC. constructor.
  - intros r f' out' [K|K].
    + injection K as <- <- <-. exists b1, d1, n1, src, b0, d, n, dst. split; [now right|]. split; [now right|exact RC].
    + destruct (A _ _ _ K) as (c1 & c2 & c3 & c4 & c5 & c6 & c7 & c8 & X & Y & Z).
      exists c1, c2, c3, c4, c5, c6, c7, c8. split; [now right|]. split; [now right|exact Z].
  - intros b N x. cbn [replay]. rewrite (buffer_of_in (q_id q) b0 d n dst h); [|intros; eapply (l_rq1 _ _ _ _ _ _ _ _ L); eauto|exact I].
    destruct (Nat.eqb_spec b0 b) as [<-|NE]; [now rewrite EO|]. rewrite OU by congruence. apply B.
    intros (r & d' & n' & dst' & K & O). apply N. exists r, d', n', dst'. split; [now right|].
    intros f' out' [E|E]; [|eapply O; eauto]. injection E as <- _ _.
    destruct (l_rq1 _ _ _ _ _ _ _ _ L _ _ _ _ _ _ _ _ _ I K) as (E & _). congruence.
Qed.

(* Work on a matched request leaves everything else alone *)
Lemma frame_get : forall h H H' it rest posted Sd R fl rq q b0 d n dst,
  minv c h H (it :: rest) posted R -> linv c h (it :: rest) posted Sd R fl rq -> obeys h ->
  getter it = true -> In (fid it, q) R -> target h q b0 d n dst -> other_users b0 H H' ->
  (forall x, In x rest -> forall b, uses c h R x b -> hp_user H' b = hp_user H b) /\
  (forall x, In x rest -> getter x = true -> fid x <> fid it) /\
  (forall q b d n dst, In q posted -> target h q b d n dst -> hp_user H' b = hp_user H b).
Proof.
  intros h H H' it rest posted Sd R fl rq q b0 d n dst M L O G Q T OU.
  assert (OP : forall f out, ~ In (ORecvDone (q_id q) f out) h).
  { apply (l_ropen _ _ _ _ _ _ _ _ L). right. now apply (in_map snd) in Q. }
  destruct (buffer_apart h H (it :: rest) posted _ _ _ _ q b0 d n dst M L O (proj1 T) OP) as (A & B).
  assert (FN : forall x, In x rest -> getter x = true -> fid x <> fid it).
  { intros x X GX E. pose proof (l_main _ _ _ _ _ _ _ _ L) as ML. rewrite ids_cons in ML.
    rewrite (l_sub _ _ _ _ _ _ _ _ L it) in ML by (auto; now left). cbn [app] in ML. apply NoDup_cons_iff in ML.
    apply (proj1 ML). rewrite <- E. apply ids_in. exists x. split; [exact X|]. split; [|reflexivity].
    apply (l_sub _ _ _ _ _ _ _ _ L); [now right|auto]. }
  assert (RI : forall f' q', In (f', q') R -> f' <> fid it -> q_id q' <> q_id q).
  { intros f' q' J N E. pose proof (l_rids _ _ _ _ _ _ _ _ L) as NR. apply NoDup_app_iff in NR. destruct NR as (_ & NR & _).
    apply in_split in J. destruct J as (l1 & l2 & EE). rewrite EE in NR, Q. rewrite map_app in NR. cbn [map snd] in NR.
    apply NoDup_remove in NR. destruct NR as (_ & NR). apply NR.
    assert (J : In (fid it, q) (l1 ++ l2)). { apply in_app_or in Q. destruct Q as [Q|[Q|Q]]; [apply in_or_app; auto|congruence|apply in_or_app; auto]. }
    rewrite <- map_app, E. apply (in_map (fun e => q_id (snd e))) in J. exact J. }
  split; [|split; [exact FN|]].
  - intros x X b UB. apply OU. apply (A x); [now right| |exact UB]. intros q' GX Q'. apply (RI (fid x) q' Q'). auto.
  - intros q' b d' n' dst' Q' T'. apply OU. apply (B q' b d' n' dst' Q'); [|exact T'].
    intros E. pose proof (l_rids _ _ _ _ _ _ _ _ L) as NR. apply NoDup_app_iff in NR. destruct NR as (_ & _ & NR).
    apply (NR (q_id q')); [now apply in_map|]. rewrite E. apply (in_map (fun e => q_id (snd e))) in Q. exact Q.
Qed.
Lemma frame_post : forall h H H' its q posted Sd R fl rq b0 d n dst,
  minv c h H its (q :: posted) R -> linv c h its (q :: posted) Sd R fl rq -> obeys h ->
  target h q b0 d n dst -> other_users b0 H H' ->
  (forall x, In x its -> forall b, uses c h R x b -> hp_user H' b = hp_user H b) /\
  (forall q b d n dst, In q posted -> target h q b d n dst -> hp_user H' b = hp_user H b).
Proof.
  intros h H H' its q posted Sd R fl rq b0 d n dst M L O T OU.
  assert (OP : forall f out, ~ In (ORecvDone (q_id q) f out) h).
  { apply (l_ropen _ _ _ _ _ _ _ _ L). left. now left. }
  destruct (buffer_apart h H its (q :: posted) _ _ _ _ q b0 d n dst M L O (proj1 T) OP) as (A & B).
  pose proof (l_rids _ _ _ _ _ _ _ _ L) as NR. cbn [map app] in NR. apply NoDup_cons_iff in NR. destruct NR as (NR & _).
  split.
  - intros x X b UB. apply OU. apply (A x X); [|exact UB]. intros q' GX Q' E. apply NR. rewrite <- E. apply in_or_app. right.
    apply (in_map (fun e => q_id (snd e))) in Q'. exact Q'.
  - intros q' b d' n' dst' Q' T'. apply OU. apply (B q' b d' n' dst'); [now right| |exact T']. intros E. apply NR. rewrite <- E.
    apply in_or_app. left. now apply in_map.
Qed.

(* The sender's queue learns that a rendezvous send is over. *)
Lemma sent_case : forall h s m rest, inv h s -> Permutation (s_items s) ((Cq, m) :: rest) ->
  carrier c (Cq, m) = true -> getter (Cq, m) = false -> nobuf m ->
  exists o s', rdv_ack m rest s = Next o s' /\ inv (o ++ h) s'.
Proof.
  intros h s m rest I P CA G (N1 & N2).
  destruct (inv_perm h s _ (s_posted s) P (Permutation_refl _) I) as (M & L & D).
  assert (FS : In (g_id m) (s_sends s)).
  { eapply Permutation_in; [apply (l_carry _ _ _ _ _ _ _ _ L)|]. rewrite ids_cons, CA. now left. }
  unfold rdv_ack, destroy. rewrite N1, N2. cbn [free].
  replace (existsb (Nat.eqb (g_id m)) (s_sends s)) with true
    by (symmetry; apply existsb_exists; exists (g_id m); split; [exact FS|apply Nat.eqb_refl]).
  eexists _, _. split; [reflexivity|]. constructor; cbn.
  - change rest with ([] ++ rest). eapply (minv_step c h _ (s_hp s) (s_hp s) [(Cq, m)] [] rest [] (s_posted s)); eauto using keeps_refl.
    + intros e E. now right.
    + apply (m_unborn _ _ _ _ _ _ M).
    + intros x [].
    + constructor.
    + intros k [].
  - apply (linv_sent c h (Cq, m)); auto.
    destruct (m_items _ _ _ _ _ _ M (Cq, m) (or_introl eq_refl)) as (b & d & n & src & S & _). exists b, d, n, src. exact S.
  - now apply dinv_plain.
Qed.

(* A rendezvous receive is over. *)
Lemma recv_case : forall h s it rest its q b0 d n dst H' out b1 d1 n1 src, inv h s -> obeys h ->
  Permutation (s_items s) (it :: rest) -> getter it = true -> In (fid it, q) (s_recvs s) -> target h q b0 d n dst ->
  keeps (own it) (s_hp s) H' -> hp_next H' = hp_next (s_hp s) -> unborn H' -> other_users b0 (s_hp s) H' ->
  In (OSend (fid it) b1 d1 n1 src) h -> out = hp_user H' b0 -> received d1 n1 src d dst out ->
  ids (carrier c) its = (if carrier c it then [fid it] else []) ->
  (forall x, In x its -> fid x = fid it /\ getter x = false /\ waiting x = false) -> (length its <= 1)%nat ->
  flat_map own its = [] -> (forall x, In x its -> okm c (ORecvDone (q_id q) (fid it) out :: h) H' (drop_recv (fid it) (s_recvs s)) x) ->
  inv (ORecvDone (q_id q) (fid it) out :: h)
    {| s_hp := H'; s_items := its ++ rest; s_posted := s_posted s; s_sends := s_sends s;
       s_recvs := drop_recv (fid it) (s_recvs s); s_flow := s_flow s; s_req := s_req s |}.
Proof.
  intros h s it rest its q b0 d n dst H' out b1 d1 n1 src I O P G Q T K EN U OU SN EO RC CA KI LE FO OK.
  destruct (inv_perm h s _ (s_posted s) P (Permutation_refl _) I) as (M & L & D).
  destruct (frame_get _ _ H' _ _ _ _ _ _ _ _ _ _ _ _ M L O G Q T OU) as (F1 & F2 & F3).
  constructor; cbn.
  - eapply (minv_step c h _ (s_hp s) H' [it] its rest [] (s_posted s)); eauto.
    + intros e E. now right.
    + cbn. now rewrite !app_nil_r.
    + lia.
    + rewrite FO. constructor.
    + rewrite FO. intros k [].
    + intros x X GX q' Q'. apply drop_in. split; [exact Q'|]. cbn. now apply F2.
  - eapply linv_rdone; eauto.
  - eapply dinv_recv; eauto; [apply T|]. intros x. now rewrite EO.
Qed.

Lemma handle_ok : forall h s m rest, inv h s -> obeys h -> Permutation (s_items s) ((Cq, m) :: rest) ->
  exists o s', handle c m rest s = Next o s' /\ inv (o ++ h) s'.
Proof.
  intros h s m rest I O P.
  destruct (inv_perm h s _ (s_posted s) P (Permutation_refl _) I) as (M & L & D).
  pose proof (m_unborn _ _ _ _ _ _ M) as U.
  pose proof (m_own _ _ _ _ _ _ M) as NO. cbn [flat_map] in NO. rewrite <- app_assoc in NO. apply NoDup_app_iff in NO. destruct NO as (NO & _).
  assert (OL : forall k, In k (own (Cq, m)) -> (k < hp_next (s_hp s))%nat).
  { intros k K. apply (m_lt _ _ _ _ _ _ M). cbn [flat_map]. rewrite !in_app_iff. auto. }
  pose proof (m_items _ _ _ _ _ _ M (Cq, m) (or_introl eq_refl)) as (b & d & n & src & S & C & T & PR & B).
  assert (CS := case_same h s (Cq, m) rest).
  assert (SC := sent_case h s m rest I P). assert (RC := recv_case h s (Cq, m) rest).
  assert (GN := getters_nodup _ _ _ _ _ _ _ _ L).
  destruct m as [f pr pa ty st ct ts len pay ack sm wi lo re pt]. unfold body, nobuf in B. unfold fid in S. cbn [fst snd g_prot g_path g_ty g_stage g_count g_tsize g_len g_pay g_ack g_smsg g_wire g_local g_remote g_partner g_id] in *.
  destruct pr, ty; try contradiction; unfold handle; proj.
  - (* eager0 data *)
    destruct B as (-> & -> & -> & -> & F). open F k1. eexists _, _; (split; [reflexivity|]). apply (CS [_]); auto using keeps_refl; easycase b d n src.
  - (* eager0 ack *)
    destruct B as (_ & -> & ->). cbn [free]. unfold destroy. proj. cbn [free]. eexists _, _; (split; [reflexivity|]).
    apply (CS []); auto using keeps_refl; easycase b d n src.
  - (* eager1 header *)
    destruct B as (_ & (-> & ->) & -> & F). open F k1.
    assert (LX : (k1 < hp_next (s_hp s))%nat) by (apply OL; cbn; auto).
    unfold alloc, pay_size. proj. rewrite C, T. replace (Z.of_nat n * Z.of_nat (msize (build d))) with (size_of d n) by (unfold size_of; lia).
    set (H1 := {| hp_user := _ |}).
    assert (K : keeps [] (s_hp s) H1) by (intros k Hk _; unfold H1; cbn; apply upd_ne; lia).
    assert (U1 : unborn H1) by (intros k Hk; unfold H1 in *; cbn in *; rewrite upd_ne by lia; apply U; lia).
    assert (RM : room H1 (size_of d n) (Temp (hp_next (s_hp s)))) by (eexists _, _; split; [reflexivity|]; unfold H1; cbn; apply upd_eq).
    assert (F1 : full H1 d n src (Temp k1)) by (apply (full_keep (s_hp s)); [exact F|]; intros k [<-|[]]; apply K; auto).
    assert (EN : hp_next H1 = Datatypes.S (hp_next (s_hp s))) by reflexivity.
    assert (EU : hp_user H1 = hp_user (s_hp s)) by reflexivity.
    assert (EP : pay_size {| g_id := f; g_prot := Eager1; g_path := pa; g_ty := Smsg; g_stage := st; g_count := Z.of_nat n;
      g_tsize := Z.of_nat (msize (build d)); g_len := len; g_pay := pay; g_ack := false; g_smsg := Null; g_wire := Null;
      g_local := lo; g_remote := re; g_partner := Temp k1 |} = size_of d n) by (unfold pay_size, size_of; proj; lia).
    unfold get_request, inject. proj. rewrite C, T in *. rewrite EP. clearbody H1.
    destruct pa; proj; eexists _, _; (split; [reflexivity|]); apply (CS [_]); auto; try lia; easycase b d n src; intros k Hk _; apply K; auto.
  - destruct B as (B & _). discriminate.
  - (* eager1 payload *)
    destruct B as (-> & -> & -> & -> & F). open F k1. eexists _, _; (split; [reflexivity|]). apply (CS [_]); auto using keeps_refl; easycase b d n src.
  - (* eager1 ack *)
    destruct B as (_ & (-> & ->) & (k1 & mm & -> & EH)).
    destruct (free_ok _ _ _ EH U) as (H2 & FR & EU2 & EN2 & K2 & U2). rewrite FR. unfold destroy. proj. cbn [free].
    eexists _, _; (split; [reflexivity|]). apply (CS [] H2); auto; try lia; easycase b d n src.
  - (* rendezvous header or ack *)
    destruct B as (NB & -> & B). destruct st as [|st].
    + destruct NB as (-> & ->).
      destruct pt; eexists _, _; (split; [reflexivity|]); apply (CS [_]); auto using keeps_refl; easycase b d n src.
    + apply SC; auto.
  - destruct B as (B & _). discriminate.
  - (* rendezvous payload *)
    destruct B as (_ & -> & -> & -> & -> & q & b2 & d2 & n2 & dst & RQ & TQ & BP & FI & EL & FQ). cbn in EL. subst lo.
    cbn in RQ. rewrite (find_recv_in f q _ GN RQ). pose proof TQ as (TQ1 & TQ2 & TQ3 & TQ4).
    match goal with |- context [finalize ?mm q _] => destruct (unpack_ok _ _ _ _ q b2 d2 n2 dst FQ FI BP U TQ2 TQ4 mm C) as (H' & FN & RE & CO & OU & EN & K & U') end.
    rewrite FN. rewrite CO in *.
    assert (KK : keeps (tmp (q_recv q) ++ []) (s_hp s) H') by now rewrite app_nil_r.
    destruct (c_soft c) eqn:SO.
    + unfold soft_ack, inject. proj. cbn [on_wire]. unfold acks. proj.
      destruct pa; eexists _, _; (split; [reflexivity|]);
        apply (RC [_] q b2 d2 n2 dst H' _ b d n src I O P eq_refl RQ TQ); auto; try (unfold ids, carrier; cbn; rewrite ?SO; reflexivity);
        one; try (repeat split; reflexivity); exists b, d, n, src; unfold body, nobuf; cbn; repeat (split; [solve [auto|discriminate|lia]|]); auto.
    + unfold destroy. proj. cbn [free]. eexists _, _; (split; [reflexivity|]).
      apply (RC [] q b2 d2 n2 dst H' _ b d n src I O P eq_refl RQ TQ); auto; try (unfold ids, carrier; cbn; rewrite ?SO; reflexivity);
        one.
  - (* rendezvous ack *)
    destruct B as (_ & NB). apply SC; auto.
Qed.
End Move.
