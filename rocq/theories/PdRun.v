(* Matches and calls of the program keep the invariant; all runs. *)
From Coq Require Import List ZArith Bool Arith Lia Permutation.
From Verif Require Import DtModel DtSpec DtProof PdModel PdSpec PdHeap PdInv PdMove.
Import ListNotations.
Local Open Scope Z_scope.

Section Run.
Variable c : pcfg.
Variable user : nat -> mem Z.
Notation inv := (inv c user).

Ltac proj := cbn [fst snd with_bufs to_payload g_prot g_path g_ty g_stage g_count g_tsize g_len g_pay g_ack g_smsg g_wire g_local g_remote g_partner g_id].

Lemma moves_ok : forall h s l it r, inv h s -> obeys h -> s_items s = l ++ it :: r -> fst it <> Unexp ->
  exists o s', moves_on c it (l ++ r) s = Next o s' /\ inv (o ++ h) s'.
Proof.
  intros h s l [pl m] r I O E N.
  assert (P : Permutation (s_items s) ((pl, m) :: l ++ r)) by (rewrite E; apply Permutation_sym, Permutation_middle).
  unfold moves_on. cbn [fst snd] in *. destruct pl; [| |congruence].
  - destruct (arrive_ok c user h s m (l ++ r) I O P) as (its & H' & A & I'). rewrite A. eexists _, _. split; [reflexivity|exact I'].
  - apply (handle_ok c user h s m (l ++ r) I O P).
Qed.

(* An eager message is given to a receive: memory after copying, unpacking and freeing *)
Lemma eager_case : forall h s it rest q posted b2 d2 n2 dst H' out b1 d1 n1 src, inv h s -> obeys h ->
  Permutation (s_items s) (it :: rest) -> Permutation (s_posted s) (q :: posted) ->
  waiting it = true -> getter it = false -> carrier c it = false -> target h q b2 d2 n2 dst ->
  keeps (own it ++ ownq q) (s_hp s) H' -> hp_next H' = hp_next (s_hp s) -> unborn H' -> other_users b2 (s_hp s) H' ->
  In (OSend (fid it) b1 d1 n1 src) h -> out = hp_user H' b2 -> received d1 n1 src d2 dst out ->
  inv (ORecvDone (q_id q) (fid it) out :: OMatch (q_id q) (fid it) :: h)
    {| s_hp := H'; s_items := rest; s_posted := posted; s_sends := s_sends s;
       s_recvs := s_recvs s; s_flow := s_flow s; s_req := s_req s |}.
Proof.
  intros h s it rest q posted b2 d2 n2 dst H' out b1 d1 n1 src I O P Q W G CA T K EN U OU SN EO RC.
  destruct (inv_perm c user h s _ _ P Q I) as (M & L & D).
  destruct (frame_post c user _ _ H' _ _ _ _ _ _ _ _ _ _ _ M L O T OU) as (F1 & F2).
  constructor; cbn.
  - change rest with ([] ++ rest). eapply (minv_step c h _ (s_hp s) H' [it] [] rest [q] posted); eauto.
    + intros e E. right. now right.
    + cbn. now rewrite !app_nil_r.
    + lia.
    + intros x [].
    + constructor.
    + intros k [].
    + intros x X. apply F1. now right.
  - eapply linv_eager; eauto.
  - assert (L' := linv_eager c h it rest q posted _ _ _ _ out L W G CA).
    assert (D' : dinv user (OMatch (q_id q) (fid it) :: h) (s_hp s)) by now apply dinv_plain.
    destruct D' as [A B]. constructor.
    + intros r f o [E|E].
      * injection E as <- <- <-. exists b1, d1, n1, src, b2, d2, n2, dst. destruct T as (T & _). repeat split; auto; right; now right.
      * destruct (A _ _ _ E) as (c1 & c2 & c3 & c4 & c5 & c6 & c7 & c8 & X & Y & Z).
        exists c1, c2, c3, c4, c5, c6, c7, c8. repeat split; auto; now right.
    + intros b N x. cbn [replay buffer_of].
      rewrite (buffer_of_in (q_id q) b2 d2 n2 dst h); [|intros; eapply (l_rq1 _ _ _ _ _ _ _ _ L); eauto|apply T].
      destruct (Nat.eqb_spec b2 b) as [<-|NE]; [now rewrite EO|]. rewrite OU by congruence. apply (B b).
      intros (r & d' & n' & dst' & J & NO). apply N. exists r, d', n', dst'. split; [now right|].
      intros f' out' [E|E]; [|eapply NO; eauto]. injection E as <- _ _.
      destruct J as [J|J]; [discriminate|].
      destruct (l_rq1 _ _ _ _ _ _ _ _ L _ _ _ _ _ _ _ _ _ (proj1 T) J) as (E & _). congruence.
Qed.

Lemma matched_ok : forall h s l m r k q j, inv h s -> rules (OMatch (q_id q) (g_id m) :: h) ->
  s_items s = l ++ (Unexp, m) :: r -> s_posted s = k ++ q :: j ->
  size_of (q_type q) (q_count q) <? g_pay m = false ->
  exists o s', matched c m q (l ++ r) (k ++ j) s = Next o s' /\ inv (o ++ h) s' /\ incl o (o ++ h) /\ In (OMatch (q_id q) (g_id m)) o.
Proof.
  intros h s l m r k q j I RU E EQ SZ.
  assert (P : Permutation (s_items s) ((Unexp, m) :: l ++ r)) by (rewrite E; apply Permutation_sym, Permutation_middle).
  assert (Q : Permutation (s_posted s) (q :: k ++ j)) by (rewrite EQ; apply Permutation_sym, Permutation_middle).
  generalize dependent (l ++ r). generalize dependent (k ++ j). clear l r k j E EQ. intros posted Q rest P.
  destruct (inv_perm c user h s _ _ P Q I) as (M & L & D).
  destruct RU as ((O & _) & TY & FT).
  pose proof (m_unborn _ _ _ _ _ _ M) as U.
  pose proof (m_own _ _ _ _ _ _ M) as NO. cbn [flat_map] in NO.
  assert (NQ : forall x, In x (own (Unexp, m)) -> ~ In x (ownq q)).
  { intros x X Y. apply NoDup_app_iff in NO. destruct NO as (_ & _ & NO). apply (NO x); apply in_or_app; auto. }
  assert (OLQ : forall x, In x (own (Unexp, m)) \/ In x (ownq q) -> (x < hp_next (s_hp s))%nat).
  { intros x X. apply (m_lt _ _ _ _ _ _ M). cbn [flat_map]. rewrite !in_app_iff. tauto. }
  rewrite <- app_assoc in NO. apply NoDup_app_iff in NO. destruct NO as (NO & _).
  pose proof (m_items _ _ _ _ _ _ M (Unexp, m) (or_introl eq_refl)) as (b & d & n & src & S & C & T & PR & B).
  destruct (m_posted _ _ _ _ _ _ M q (or_introl eq_refl)) as (b2 & d2 & n2 & dst & TQ & ID).
  pose proof TQ as (TQ1 & TQ2 & TQ3 & TQ4).
  assert (FI : fitting d n d2 n2).
  { apply (FT (q_id q) (g_id m) b d n src b2 d2 n2 dst); [now left|right; exact S|right; exact TQ1]. }
  assert (BP : blocks_pos d2). { apply (proj2 TY (q_id q) b2 d2 n2 dst). now right. }
  assert (EC := eager_case h s (Unexp, m) rest q posted b2 d2 n2 dst).
  unfold matched. rewrite SZ.
  destruct m as [f pr pa ty st ct ts len pay ack sm wi lo re pt]. unfold body, nobuf in B. unfold fid in S. cbn [fst snd g_prot g_path g_ty g_stage g_count g_tsize g_len g_pay g_ack g_smsg g_wire g_local g_remote g_partner g_id] in *.
  destruct pr, ty; try contradiction; try (destruct B as (B & _); (contradiction || discriminate)); proj.
  - (* eager0 *)
    destruct B as (-> & -> & -> & -> & F).
    destruct (copy_req _ sm d n src q b2 d2 n2 dst ID FI (full_holds _ _ _ _ _ F) U) as (H1 & W & FQ & OU & EN & K & U1).
    rewrite W.
    match goal with |- context [finalize ?mm q _] => destruct (unpack_ok _ _ _ _ q b2 d2 n2 dst FQ FI BP U1 TQ2 TQ4 mm C) as (H2 & FN & RE & CO & OU2 & EN2 & K2 & U2) end.
    rewrite FN, CO in *. unfold destroy. proj. cbn [free].
    destruct F as (k1 & mm & -> & EH & _).
    assert (N1 : ~ In k1 (tmp (q_recv q))) by (apply NQ; cbn; auto).
    assert (L1 : (k1 < hp_next (s_hp s))%nat) by (apply OLQ; cbn; auto).
    rewrite <- (K k1), <- (K2 k1) in EH by (try rewrite EN; auto).
    destruct (free_ok _ _ _ EH U2) as (H3 & FR & EU3 & EN3 & K3 & U3). rewrite FR.
    eexists _, _. split; [reflexivity|]. split; [|split; [apply incl_appl; intros ? ?; assumption|right; now left]].
    apply (EC H3 _ b d n src); auto; try lia.
    + intros x Hx N. cbn in N. rewrite K3; [|lia|cbn; tauto]. rewrite K2; [|lia|tauto]. apply K; [lia|tauto].
    + intros b' N. rewrite EU3, (OU2 b' N). now apply OU.
    + now rewrite EU3.
  - (* eager1 *)
    destruct B as (-> & -> & -> & -> & F).
    destruct (copy_req _ lo d n src q b2 d2 n2 dst ID FI (full_holds _ _ _ _ _ F) U) as (H1 & W & FQ & OU & EN & K & U1).
    rewrite W.
    destruct F as (k1 & mm & -> & EH & _).
    assert (N1 : ~ In k1 (tmp (q_recv q))) by (apply NQ; cbn; auto).
    assert (L1 : (k1 < hp_next (s_hp s))%nat) by (apply OLQ; cbn; auto).
    rewrite <- (K k1) in EH by auto.
    destruct (free_ok _ _ _ EH U1) as (H2 & FR & EU2 & EN2 & K2 & U2). rewrite FR.
    assert (FQ2 : filled_q H2 d n src q b2 d2 n2 dst).
    { apply (filled_keep H1); auto; [|now rewrite EU2]. intros x X. apply K2; [rewrite EN; auto|]. intros [<-|[]]. contradiction. }
    match goal with |- context [finalize ?mm q _] => destruct (unpack_ok _ _ _ _ q b2 d2 n2 dst FQ2 FI BP U2 TQ2 TQ4 mm C) as (H3 & FN & RE & CO & OU3 & EN3 & K3 & U3) end.
    rewrite FN, CO in *. unfold destroy. proj. cbn [free].
    eexists _, _. split; [reflexivity|]. split; [|split; [apply incl_appl; intros ? ?; assumption|right; now left]].
    apply (EC H3 _ b d n src); auto; try lia.
    + intros x Hx N. cbn in N. rewrite K3; [|lia|tauto]. rewrite K2; [|lia|cbn; tauto]. apply K; [lia|tauto].
    + intros b' N. rewrite (OU3 b' N), EU2. now apply OU.
  - (* rendezvous *)
    destruct B as ((-> & ->) & -> & B). destruct st as [|st]; [|destruct B as (B & _); contradiction].
    assert (EP : ct * ts = size_of d n) by (rewrite C, T; unfold size_of; lia).
    assert (STEP : forall it', fid it' = f -> main it' = true -> carrier c it' = true -> getter it' = true -> waiting it' = false ->
      NoDup (own it') -> (forall x, In x (own it') -> In x (tmp pt ++ tmp (q_recv q))) ->
      okm c (OMatch (q_id q) f :: h) (s_hp s) ((f, q) :: s_recvs s) it' ->
      inv (OMatch (q_id q) f :: h) {| s_hp := s_hp s; s_items := it' :: rest; s_posted := posted; s_sends := s_sends s;
         s_recvs := (f, q) :: s_recvs s; s_flow := s_flow s; s_req := s_req s |}).
    { intros it' E1 E2 E3 E4 E5 E6 E7 E8. constructor; cbn.
      - change (it' :: rest) with ([it'] ++ rest).
        eapply (minv_step c h _ (s_hp s) (s_hp s) [_] [it'] rest [q] posted); eauto using keeps_refl.
        + intros e X. now right.
        + intros x [<-|[]]; exact E8.
        + cbn. now rewrite app_nil_r.
        + intros x X. left. cbn in *. rewrite app_nil_r in *. unfold ownq. rewrite !app_nil_r. auto.
        + intros x X GX q' Q'. now right.
      - exact (linv_match c h _ it' _ _ _ _ _ _ _ L eq_refl eq_refl eq_refl E1 E2 E3 E4 E5).
      - now apply dinv_plain. }
    unfold get_request, inject, pay_size. proj. rewrite EP.
    cbn in NO. rewrite app_nil_r in NO.
    assert (ND : NoDup (tmp pt ++ tmp (q_recv q) ++ [])).
    { rewrite app_nil_r. apply NoDup_app_iff. split; [exact NO|]. split; [destruct (q_recv q); repeat constructor; intros []|].
      intros x X. apply NQ. cbn. now rewrite app_nil_r. }
    destruct pa; proj; eexists _, _; (split; [reflexivity|]); (split; [|split; [apply incl_appl; intros ? ?; assumption|now left]]);
      (apply STEP; try reflexivity; try (unfold carrier; cbn; now rewrite ?orb_true_r);
       first [exact ND | solve [intros x X; cbn in X; now rewrite app_nil_r in X] |
        exists b, d, n, src; unfold body, nobuf; cbn; repeat (split; [solve [auto|discriminate|lia]|]);
        exists q, b2, d2, n2, dst; cbn; split; [now left|]; split; [split; [now right|auto]|]; auto]).
Qed.

(* ---------- calls ---------- *)

Lemma write_ok : forall h s b x v, inv h s -> rules (OWrite b x v :: h) ->
  inv (OWrite b x v :: h) (set_items s (store (User b) (mset (hp_user (s_hp s) b) x v) (s_hp s)) (s_items s)).
Proof.
  intros h s b x v [M L D] ((O & NS & NR) & _ & _). constructor; cbn.
  - change (s_items s) with ([] ++ s_items s). eapply (minv_step c h _ (s_hp s) _ [] [] (s_items s) [] (s_posted s) _ _ M); cbn.
    + intros e E. now right.
    + intros k _ _. reflexivity.
    + apply le_n.
    + intros k K. apply (m_unborn _ _ _ _ _ _ M). exact K.
    + intros y [].
    + constructor.
    + intros k [].
    + intros y Y b' UB. apply upd_ne. intros ->. destruct UB as [(CA & d & n & src & S)|(G & q & Q & F)].
      * apply NS. exists (fid y), d, n, src. split; [exact S|]. apply (l_open _ _ _ _ _ _ _ _ L).
        eapply Permutation_in; [apply (l_carry _ _ _ _ _ _ _ _ L)|]. apply ids_in. eauto.
      * apply NR. destruct (m_items _ _ _ _ _ _ M y Y) as (b1 & d1 & n1 & src & _ & _ & _ & _ & B).
        assert (T : exists q1 d2 n2 dst, In (fid y, q1) (s_recvs s) /\ exists b2, target h q1 b2 d2 n2 dst).
        { unfold getter, body in *. destruct (g_prot (snd y)); try discriminate. destruct (g_ty (snd y)); try discriminate.
          - destruct B as (_ & _ & _ & _ & _ & _ & q1 & b2 & d2 & n2 & dst & B). exists q1, d2, n2, dst. split; [apply B|]. exists b2. apply B.
          - destruct B as (_ & _ & _ & _ & B). destruct (fst y); [destruct (g_path (snd y))| |];
              first [solve [destruct B as (_ & q1 & b2 & d2 & n2 & dst & B); exists q1, d2, n2, dst; split; [apply B|]; exists b2; apply B]
                    |solve [destruct B as (_ & _ & q1 & b2 & d2 & n2 & dst & B); exists q1, d2, n2, dst; split; [apply B|]; exists b2; apply B]]. }
        destruct T as (q1 & d2 & n2 & dst & Q1 & b2 & (T1 & T2 & T3 & T4)).
        pose proof (getters_nodup _ _ _ _ _ _ _ _ L) as GN.
        assert (q1 = q) by (apply (find_recv_in _ _ _ GN) in Q; apply (find_recv_in _ _ _ GN) in Q1; congruence). subst q1.
        assert (b2 = b) by congruence. subst b2. exists (q_id q), d2, n2, dst. split; [exact T1|].
        apply (l_ropen _ _ _ _ _ _ _ _ L). right. now apply (in_map snd) in Q.
    + auto.
    + intros q b' d n dst Q (T & _). apply upd_ne. intros ->. apply NR. exists (q_id q), d, n, dst. split; [exact T|].
      apply (l_ropen _ _ _ _ _ _ _ _ L). now left.
  - now apply linv_write.
  - destruct D as [A B]. constructor.
    + intros r f out [I|I]; [discriminate|]. destruct (A _ _ _ I) as (c1 & c2 & c3 & c4 & c5 & c6 & c7 & c8 & X & Y & Z).
      exists c1, c2, c3, c4, c5, c6, c7, c8. repeat split; auto; now right.
    + intros b' N y. cbn [replay hp_user]. assert (N' : ~ receiving b' h).
      { intros K. apply N. apply receiving_cons; [| |exact K]; intros; discriminate. }
      destruct (Nat.eqb_spec b b') as [<-|NE]; [rewrite upd_eq|rewrite upd_ne by congruence; now apply B].
      unfold mset. destruct (y =? x); [reflexivity|now apply B].
Qed.

Lemma post_ok : forall h s b d n o s', inv h s -> post c b d n s = (o, s') -> inv (o ++ h) s'.
Proof.
  intros h s b d n o s' [M L D] E. unfold post in E.
  set (H' := snd (if mcontig (build d) then (User b, s_hp s) else alloc (c_junk c) (size_of d n) (s_hp s))).
  set (p := fst (if mcontig (build d) then (User b, s_hp s) else alloc (c_junk c) (size_of d n) (s_hp s))).
  replace (if mcontig (build d) then (User b, s_hp s) else alloc (c_junk c) (size_of d n) (s_hp s)) with (p, H') in E
    by (unfold p, H'; destruct (mcontig (build d)); reflexivity).
  injection E as <- <-. set (q := {| q_id := s_req s; q_count := n; q_type := d; q_recv := p; q_final := User b |}).
  pose proof (m_unborn _ _ _ _ _ _ M) as U.
  assert (HF : hp_user H' = hp_user (s_hp s) /\ keeps [] (s_hp s) H' /\ (hp_next (s_hp s) <= hp_next H')%nat /\ unborn H' /\
    (forall k, In k (ownq q) -> (hp_next (s_hp s) <= k < hp_next H')%nat) /\ NoDup (ownq q) /\
    if mcontig (build d) then p = User b else room H' (size_of d n) p).
  { unfold H', p, q, ownq. cbn [q_recv]. destruct (mcontig (build d)) eqn:C; cbn [fst snd].
    - split; [reflexivity|]. split; [apply keeps_refl|]. split; [lia|]. split; [exact U|]. split; [intros k []|]. split; [constructor|reflexivity].
    - cbn [alloc fst snd tmp]. cbn. split; [reflexivity|]. split; [intros k Hk _; cbn; apply upd_ne; lia|]. split; [lia|].
      split; [intros k Hk; cbn in *; rewrite upd_ne by lia; apply U; lia|]. split; [intros k [<-|[]]; lia|].
      split; [repeat constructor; intros []|]. eexists _, _. split; [reflexivity|]. cbn. apply upd_eq. }
  destruct HF as (EU & K & LE & U' & OQ & NQ & RM). clearbody H' p.
  constructor; cbn.
  - assert (M' : minv c (ORecv (s_req s) b d n (hp_user (s_hp s) b) :: h) H' ([] ++ s_items s) (s_posted s) (s_recvs s)).
    { eapply (minv_step c h _ (s_hp s) H' [] [] (s_items s) [] (s_posted s)); eauto; cbn; try (intros; now rewrite EU); try (intros ? []).
      + intros e X. now right.
      + constructor. }
    cbn [app] in M'. destruct M' as [M1 M2 M3 M4 M5]. constructor; auto.
    + intros x X. apply in_app_or in X. destruct X as [X|[<-|[]]]; [now apply M2|].
      exists b, d, n, (hp_user (s_hp s) b). split; [repeat split; now left|]. split; [now rewrite EU|exact RM].
    + rewrite flat_map_app. cbn [flat_map]. rewrite app_nil_r, app_assoc. apply NoDup_app_iff. split; [exact M3|]. split; [exact NQ|].
      intros x X Y. apply OQ in Y. apply (m_lt _ _ _ _ _ _ M) in X. lia.
    + intros k Hk. rewrite flat_map_app in Hk. cbn [flat_map] in Hk. rewrite app_nil_r, app_assoc in Hk. apply in_app_or in Hk.
      destruct Hk as [Hk|Hk]; [now apply M4|]. apply OQ in Hk. lia.
  - apply (linv_post c h _ _ _ _ _ _ b d n (hp_user (s_hp s) b) q L). reflexivity.
  - destruct D as [A B]. constructor.
    + intros r f out [I|I]; [discriminate|]. destruct (A _ _ _ I) as (c1 & c2 & c3 & c4 & c5 & c6 & c7 & c8 & X & Y & Z).
      exists c1, c2, c3, c4, c5, c6, c7, c8. repeat split; auto; now right.
    + intros b' N y. rewrite EU. cbn [replay]. apply B. intros (r & d' & n' & dst' & I & O). apply N.
      exists r, d', n', dst'. split; [now right|]. intros f out [X|X]; [discriminate|eapply O; eauto].
Qed.

Lemma send_case : forall h s b d n H' its (rdv : bool) o, inv h s -> 
  o = (if rdv then [OSend (s_flow s) b d n (hp_user (s_hp s) b)] else [OSendDone (s_flow s); OSend (s_flow s) b d n (hp_user (s_hp s) b)]) ->
  hp_user H' = hp_user (s_hp s) -> keeps [] (s_hp s) H' -> (hp_next (s_hp s) <= hp_next H')%nat -> unborn H' ->
  (forall x, In x its -> okm c (o ++ h) H' (s_recvs s) x) -> NoDup (flat_map own its) ->
  (forall k, In k (flat_map own its) -> (hp_next (s_hp s) <= k < hp_next H')%nat) ->
  ids main its = [s_flow s] -> ids (carrier c) its = (if rdv then [s_flow s] else []) -> ids getter its = [] ->
  (forall x, In x its -> fid x = s_flow s /\ (waiting x = true -> main x = true)) ->
  inv (o ++ h) {| s_hp := H'; s_items := its ++ s_items s; s_posted := s_posted s;
     s_sends := if rdv then s_flow s :: s_sends s else s_sends s; s_recvs := s_recvs s; s_flow := S (s_flow s); s_req := s_req s |}.
Proof.
  intros h s b d n H' its rdv o [M L D] EO EU K LE U OK ND OW I1 I2 I3 I4. constructor; cbn.
  - eapply (minv_step c h _ (s_hp s) H' [] its (s_items s) [] (s_posted s) _ _ M); auto.
    + apply incl_appr. intros e; auto.
    + intros x X b' _. now rewrite EU.
    + intros q b' d' n' dst Q T. now rewrite EU.
  - eapply linv_send; eauto.
  - assert (D' : dinv user h H') by (apply (dinv_same user h (s_hp s)); [exact D|]; intros; now rewrite EU).
    subst o. destruct rdv; cbn [app]; repeat apply dinv_plain; auto.
Qed.

Ltac okay b d n src := exists b, d, n, src; unfold body, nobuf; cbn; repeat (split; [solve [auto|discriminate|lia]|]); auto.
Ltac one := let x := fresh "z" in let X := fresh "Z" in intros x X;
  match type of X with In _ _ => idtac end; cbn in X; repeat match type of X with _ \/ _ => destruct X as [<-|X] end; try contradiction.

Lemma send_ok : forall h s b d n pa, inv h s -> blocks_pos d -> exists o s', send c b d n pa s = Some (o, s') /\ inv (o ++ h) s'.
Proof.
  intros h s b d n pa I BP. assert (U := m_unborn _ _ _ _ _ _ (i_m _ _ _ _ I)).
  assert (SC := send_case h s b d n). unfold send.
  destruct (fill_ok c (s_hp s) b d n BP U) as (H1 & FI & F & EU & EN & K & U1).
  assert (FQ : forall w, full H1 d n (hp_user (s_hp s) b) w -> w = Temp (hp_next (s_hp s)) -> True) by auto.
  destruct (choose c (size_of d n)) eqn:CH.
  - rewrite FI. unfold header, inject. proj. destruct pa; proj.
    + eexists _, _. split; [reflexivity|]. apply (SC H1 _ false); auto; try lia; unfold acks; proj.
      * one; okay b d n (hp_user (s_hp s) b).
      * cbn. repeat constructor. intros [].
      * intros k [<-|[]]. lia.
      * one; split; auto; discriminate.
    + eexists _, _. split; [reflexivity|]. apply (SC H1 [_] false); auto; try lia.
      * one; okay b d n (hp_user (s_hp s) b).
      * cbn. repeat constructor. intros [].
      * intros k [<-|[]]. lia.
      * one; split; auto; discriminate.
    + destruct (wire_ok c H1 _ d n _ (full_holds _ _ _ _ _ F) U1) as (H2 & W & F2 & EU2 & EN2 & K2 & U2). rewrite W.
      eexists _, _. split; [reflexivity|]. apply (SC H2 _ false); auto; try lia; unfold acks; proj.
      * congruence.
      * intros k Hk N. rewrite K2; auto. lia.
      * one; okay b d n (hp_user (s_hp s) b).
      * cbn. repeat constructor. intros [].
      * intros k [<-|[]]. lia.
      * one; split; auto; discriminate.
  - rewrite FI. unfold header, inject. proj. cbn [on_wire]. unfold acks. proj.
    destruct pa; proj; eexists _, _; (split; [reflexivity|]); apply (SC H1 [_] false); auto; try lia;
      first [solve [one; okay b d n (hp_user (s_hp s) b)] | solve [cbn; repeat constructor; intros []]
            | solve [intros k [<-|[]]; lia] | solve [one; split; auto; discriminate]].
  - destruct (mcontig (build d)) eqn:CO.
    + unfold header, inject. proj. cbn [on_wire]. unfold acks. proj.
      assert (SO : src_ok (s_hp s) b d n (hp_user (s_hp s) b) (User b)) by (right; auto).
      destruct pa; proj; eexists _, _; (split; [reflexivity|]); apply (SC (s_hp s) [_] true); auto using keeps_refl;
        first [solve [one; okay b d n (hp_user (s_hp s) b)] | solve [constructor] | solve [intros k []] | solve [one; split; auto; discriminate]].
    + rewrite FI. unfold header, inject. proj. cbn [on_wire]. unfold acks. proj.
      assert (SO : src_ok H1 b d n (hp_user (s_hp s) b) (Temp (hp_next (s_hp s)))) by (left; auto).
      destruct pa; proj; eexists _, _; (split; [reflexivity|]); apply (SC H1 [_] true); auto; try lia;
        first [solve [one; okay b d n (hp_user (s_hp s) b)] | solve [cbn; repeat constructor; intros []]
              | solve [intros k [<-|[]]; lia] | solve [one; split; auto; discriminate]].
Qed.

(* ---------- all runs ---------- *)

Lemma inv0 : inv [] (pst0 user).
Proof.
  constructor; cbn.
  - constructor; cbn; [intros ? []|intros ? []|apply NoDup_nil|intros ? []|intros k _; reflexivity].
  - constructor; cbn; intros; try apply NoDup_nil; try apply Permutation_refl; try contradiction;
      match goal with K : _ \/ _ |- _ => destruct K; contradiction end.
  - constructor; [intros r f out []|reflexivity].
Qed.

Theorem run_inv : forall h s, prun c user h s -> rules h -> inv h s.
Proof.
  intros h s R. induction R as [|h s b x v R IH|h s b d n pa o s' R IH E|h s b d n o s' R IH E|h s l it r o s' R IH E N EM|h s l m r k q j o s' R IH E EQ EM];
    intros RU.
  - apply inv0.
  - apply write_ok; [|exact RU]. apply IH. apply (rules_tail [OWrite b x v]). exact RU.
  - specialize (IH (rules_tail o h RU)).
    assert (BP : blocks_pos d).
    { destruct RU as (_ & (T & _) & _). apply (T (s_flow s) b d n (hp_user (s_hp s) b)). apply in_or_app. left.
      unfold send in E. destruct (match choose c (size_of d n) with Eager0 => _ | Eager1 => _ | Rendezvous => _ end) as [(m, h1)|]; [|discriminate].
      destruct (inject c m h1) as [(its, h2)|]; [|discriminate]. injection E as <- _. destruct (g_prot m); cbn; auto. }
    destruct (send_ok h s b d n pa IH BP) as (o1 & s1 & E1 & I1). rewrite E in E1. injection E1 as <- <-. exact I1.
  - apply (post_ok h s b d n o s'); [|exact E]. apply IH. now apply (rules_tail o).
  - specialize (IH (rules_tail o h RU)).
    destruct (moves_ok h s l it r IH (proj1 (rules_tail o h RU)) E N) as (o1 & s1 & E1 & I1). rewrite EM in E1. injection E1 as <- <-. exact I1.
  - specialize (IH (rules_tail o h RU)).
    destruct (size_of (q_type q) (q_count q) <? g_pay m) eqn:SZ; [unfold matched in EM; rewrite SZ in EM; discriminate|].
    assert (RM : rules (OMatch (q_id q) (g_id m) :: h)).
    { assert (OO : exists o', o = o' ++ [OMatch (q_id q) (g_id m)]).
      { unfold matched in EM. rewrite SZ in EM. destruct (g_prot m).
        - destruct (memcpy _ _ _ _) as [h1|]; [|discriminate]. destruct (finalize m q h1) as [h2|]; [|discriminate].
          destruct (destroy m h2); [|discriminate]. injection EM as <- _. now eexists [_].
        - destruct (memcpy _ _ _ _) as [h1|]; [|discriminate]. destruct (free _ h1) as [h1'|]; [|discriminate].
          destruct (finalize m q h1') as [h2|]; [|discriminate].
          destruct (destroy m h2); [|discriminate]. injection EM as <- _. now eexists [_].
        - destruct (inject _ _ _) as [(its, h1)|]; [|discriminate]. injection EM as <- _. now exists []. }
      destruct OO as (o' & ->). apply (rules_tail o'). now rewrite <- app_assoc in RU. }
    destruct (matched_ok h s l m r k q j IH RM E EQ SZ) as (o1 & s1 & E1 & I1 & _). rewrite EM in E1. injection E1 as <- <-. exact I1.
Qed.
End Run.
