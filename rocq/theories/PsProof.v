From Coq Require Import List Bool Arith Lia.
Import ListNotations.
From Verif Require Import PsModel PsSpec.

Lemma put_same : forall f i r, put f i r i = r.
Proof. intros. unfold put. rewrite Nat.eqb_refl. reflexivity. Qed.
Lemma put_other : forall f i r x, x <> i -> put f i r x = f x.
Proof. intros f i r x N. unfold put. apply Nat.eqb_neq in N. rewrite N. reflexivity. Qed.
Lemma upd_same : forall f i r, upd f i r i = Some r.
Proof. intros. unfold upd. rewrite Nat.eqb_refl. reflexivity. Qed.
Lemma upd_other : forall f i r x, x <> i -> upd f i r x = f x.
Proof. intros f i r x N. unfold upd. apply Nat.eqb_neq in N. rewrite N. reflexivity. Qed.

(* an object of the code and the request of MPI it stands for *)
Definition alike (o : option rq) (q : option mq) : Prop :=
  match o, q with
  | None, None => True
  | None, Some q => m_live q = false /\ m_ph q <> Flying
  | Some _, None => False
  | Some r, Some q =>
    r_args r = m_args q /\ r_pers r = m_pers q /\ r_map r = m_live q /\
    (a_kind (m_args q) = Snd -> r_stat r = Unset) /\
    (m_pers q = true -> a_kind (m_args q) = Rcv -> a_peer (m_args q) <> None) /\
    match m_ph q with
    | Idle => m_pers q = true
    | Flying => r_done r = false
    | Over st => r_done r = true /\ r_stat r = st
    end
  end.

Definition open (gv : list (nat * args)) (ov : list nat) (k i : nat) (a : args) : Prop :=
  nth_error gv k = Some (i, a) /\ existsb (Nat.eqb k) ov = false.

Definition same_call (s : rank) (c : option call) (w : option (list nat * result)) : Prop :=
  match c, w with
  | None, None => True
  | Some c, Some (l, r) =>
    c_wait c = l /\
    (forall i, In i l -> objs s i <> None) /\
    match r with
    | NoStatus => c_null c = false /\ c_ign c = true
    | NullStatus => c_null c = true /\ c_ign c = false
    | StatusOf i => c_null c = false /\ c_ign c = false /\ c_recv c = Some i /\ In i l
    end
  | _, _ => False
  end.

Record sim (s : rank) (m : mpi) : Prop := {
  sim_next : next s = made m;
  sim_ops : ops s = given m;
  sim_ended : ended s = over m;
  sim_dead : dead s = false;
  sim_obj : forall i, alike (objs s i) (reqs m i);
  sim_fresh : forall i, made m <= i -> reqs m i = None;
  sim_open : forall k i a, open (given m) (over m) k i a ->
             i < made m /\ exists q, reqs m i = Some q /\ m_ph q = Flying /\ m_args q = a;
  sim_one : forall k k' i a a', open (given m) (over m) k i a -> open (given m) (over m) k' i a' -> k = k';
  sim_bound : forall k, In k (over m) -> k < length (given m);
  sim_hidden : forall l w, within m = Some (l, w) -> forall i, In i l ->
               exists q, reqs m i = Some q /\ m_live q = false /\ m_pers q = false;
  sim_call : same_call s (inside s) (within m)
}.

Lemma start_sim : sim start_rank start_mpi.
Proof.
  constructor; cbn; auto; try tauto; try discriminate; intros.
  - destruct H as [H _]. destruct k; discriminate.
  - destruct H as [H _]. destruct k; discriminate.
Qed.

Lemma open_app : forall gv ov k i a j b, (forall k, In k ov -> k < length gv) ->
  open (gv ++ [(j, b)]) ov k i a <->
  (open gv ov k i a \/ (k = length gv /\ i = j /\ a = b)).
Proof.
  intros gv ov k i a j b B. unfold open. split.
  - intros [H1 H2]. destruct (lt_eq_lt_dec k (length gv)) as [[L|E]|L].
    + rewrite nth_error_app1 in H1 by exact L. auto.
    + subst k. rewrite nth_error_app2 in H1 by lia. rewrite Nat.sub_diag in H1.
      cbn in H1. injection H1 as <- <-. auto.
    + assert (K : nth_error (gv ++ [(j, b)]) k = None)
        by (apply nth_error_None; rewrite app_length; cbn; lia).
      congruence.
  - intros [[H1 H2]|[-> [-> ->]]].
    + split; [|exact H2]. rewrite nth_error_app1; [exact H1|].
      apply nth_error_Some. congruence.
    + split.
      * rewrite nth_error_app2, Nat.sub_diag by lia. reflexivity.
      * destruct (existsb (Nat.eqb (length gv)) ov) eqn:X; [|reflexivity].
        apply existsb_exists in X. destruct X as [y [Y1 Y2]]. apply Nat.eqb_eq in Y2. subst y.
        apply B in Y1. lia.
Qed.

Lemma objs_none : forall s m i, sim s m -> made m <= i -> objs s i = None.
Proof.
  intros s m i S L. pose proof (sim_obj _ _ S i) as A. rewrite (sim_fresh _ _ S i L) in A.
  destruct (objs s i); [destruct A|reflexivity].
Qed.

Lemma get_alike : forall s m i, sim s m ->
  match phase_of m i with
  | None => get s i = None
  | Some (q, ph) => exists r, get s i = Some r /\ objs s i = Some r /\ reqs m i = Some q /\
      m_ph q = ph /\ m_live q = true /\ alike (Some r) (Some q)
  end.
Proof.
  intros s m i S. pose proof (sim_obj _ _ S i) as A. unfold phase_of, get.
  destruct (reqs m i) as [q|] eqn:Q, (objs s i) as [r|] eqn:R; try contradiction; auto.
  - pose proof A as A'. destruct A' as [_ [_ [A3 _]]]. rewrite A3. destruct (m_live q) eqn:L; [|reflexivity].
    exists r. auto 10.
  - destruct A as [A _]. rewrite A. reflexivity.
Qed.

(* one more request *)
Lemma fresh_sim : forall s m a q r, sim s m -> alike (Some r) (Some q) ->
  m_args q = a -> m_ph q <> Flying ->
  sim (Rank (put (objs s) (next s) (Some r)) (S (next s)) (ops s) (ended s) (inside s) (dead s))
      (Mpi (upd (reqs m) (made m) q) (S (made m)) (given m) (over m) (within m)).
Proof.
  intros s m a q r S A Ea F. destruct S as [S1 S2 S3 S4 S5 S6 S7 S8 S9 S10 S11].
  constructor; cbn [next ops ended dead objs reqs made given over within inside];
    try assumption; try congruence.
  - intros i. destruct (Nat.eq_dec i (made m)) as [->|N].
    + rewrite S1, put_same, upd_same. exact A.
    + rewrite put_other, upd_other by congruence. apply S5.
  - intros i L. rewrite upd_other by lia. apply S6. lia.
  - intros k i b O. destruct (S7 k i b O) as [L [q' K]]. split; [lia|].
    exists q'. rewrite upd_other by lia. exact K.
  - intros l w W i I. destruct (S10 l w W i I) as [q' K]. exists q'.
    rewrite upd_other; [exact K|]. intros ->. destruct K as [K _]. rewrite S6 in K by lia. discriminate.
  - unfold same_call in *. destruct (inside s) as [c|], (within m) as [[l w]|]; try assumption.
    destruct S11 as [C1 [C2 C3]]. split; [exact C1|]. split; [|exact C3].
    intros i I. destruct (Nat.eq_dec i (next s)) as [->|N].
    + cbn. rewrite put_same. discriminate.
    + cbn. rewrite put_other by exact N. apply C2, I.
Qed.

(* one more request with a transfer *)
Lemma flying_sim : forall s m a live, sim s m ->
  sim (issue (next s) a (make a false false Unset live s))
      (Mpi (upd (reqs m) (made m) (Mq a false Flying live)) (S (made m))
           (given m ++ [(made m, a)]) (over m) (within m)).
Proof.
  intros s m a live S. pose proof (objs_none _ _ (made m) S (le_n _)) as ON.
  destruct S as [S1 S2 S3 S4 S5 S6 S7 S8 S9 S10 S11].
  unfold issue, make.
  constructor; cbn [next ops ended dead objs reqs made given over within inside];
    try assumption; try congruence.
  - intros i. destruct (Nat.eq_dec i (made m)) as [->|N].
    + rewrite S1, put_same, upd_same. cbn. repeat split; auto. discriminate.
    + rewrite put_other, upd_other by congruence. apply S5.
  - intros i L. rewrite upd_other by lia. apply S6. lia.
  - intros k i b O. apply open_app in O; [|exact S9]. destruct O as [O|[-> [-> ->]]].
    + destruct (S7 k i b O) as [L [q' K]]. split; [lia|].
      exists q'. rewrite upd_other by lia. exact K.
    + split; [lia|]. exists (Mq a false Flying live). rewrite upd_same. auto.
  - intros k k' i b b' O O'. apply open_app in O; [|exact S9]. apply open_app in O'; [|exact S9].
    destruct O as [O|[-> [-> ->]]], O' as [O'|[-> [E ->]]].
    + eapply S8; eauto.
    + subst i. apply S7 in O. lia.
    + apply S7 in O'. lia.
    + reflexivity.
  - intros k I. rewrite app_length. apply S9 in I. lia.
  - intros l w W i I. destruct (S10 l w W i I) as [q' K]. exists q'.
    rewrite upd_other; [exact K|]. intros ->. destruct K as [K _]. rewrite S6 in K by lia. discriminate.
  - unfold same_call in *. destruct (inside s) as [c|], (within m) as [[l w]|]; try assumption.
    destruct S11 as [C1 [C2 C3]]. split; [exact C1|]. split; [|exact C3].
    intros i I. destruct (Nat.eq_dec i (next s)) as [->|N].
    + cbn. rewrite put_same. discriminate.
    + cbn. rewrite put_other by exact N. apply C2, I.
Qed.

Lemma post_sim : forall s m a live, sim s m -> sim (post a live s) (new_active a live m).
Proof.
  intros s m a live S. unfold post, new_active, begun, gives. destruct (a_peer a) as [p|] eqn:P.
  - apply flying_sim, S.
  - rewrite app_nil_r. unfold make. apply fresh_sim with (a := a); cbn; auto; [|discriminate].
    repeat split; auto; try discriminate. intros ->. reflexivity.
Qed.

Lemma post_next : forall a live s, next (post a live s) = S (next s).
Proof. intros. unfold post. destruct (a_peer a); reflexivity. Qed.
Lemma post_inside : forall a live s, inside (post a live s) = inside s.
Proof. intros. unfold post. destruct (a_peer a); reflexivity. Qed.
Lemma post_objs : forall a live s, objs (post a live s) (next s) <> None.
Proof. intros. unfold post. destruct (a_peer a); cbn; rewrite put_same; discriminate. Qed.
Lemma post_keeps : forall a live s i, objs s i <> None -> objs (post a live s) i <> None.
Proof.
  intros a live s i H. destruct (Nat.eq_dec i (next s)) as [->|N]; [apply post_objs|].
  unfold post. destruct (a_peer a); cbn; rewrite put_other by exact N; exact H.
Qed.

(* an existing request changes, the transfers do not *)
Lemma change_sim : forall s s' m i q r, sim s m -> alike r (Some q) -> i < made m ->
  (forall k a, ~ open (given m) (over m) k i a) -> within m = None ->
  next s' = next s -> ops s' = ops s -> ended s' = ended s -> dead s' = dead s ->
  inside s' = inside s -> (forall x, objs s' x = put (objs s) i r x) ->
  sim s' (set_req i q m).
Proof.
  intros s s' m i q r S A L F W E1 E2 E3 E4 E5 E6.
  destruct S as [S1 S2 S3 S4 S5 S6 S7 S8 S9 S10 S11].
  unfold set_req.
  constructor; cbn [next ops ended dead objs reqs made given over within inside];
    try assumption; try congruence.
  - intros x. rewrite E6. destruct (Nat.eq_dec x i) as [->|N].
    + rewrite put_same, upd_same. exact A.
    + rewrite put_other, upd_other by exact N. apply S5.
  - intros x Lx. rewrite upd_other by lia. apply S6, Lx.
  - intros k x b O. destruct (S7 k x b O) as [Lx [q' K]]. split; [exact Lx|].
    exists q'. rewrite upd_other; [exact K|]. intros ->. apply (F k b O).
  - rewrite E5. unfold same_call in *. rewrite W in *. destruct (inside s); assumption.
Qed.

Lemma not_open : forall s m i q, sim s m -> reqs m i = Some q -> m_ph q <> Flying ->
  forall k a, ~ open (given m) (over m) k i a.
Proof.
  intros s m i q S R P k a O. destruct (sim_open _ _ S k i a O) as [_ [q' [E [F _]]]]. congruence.
Qed.

Lemma made_lt : forall s m i q, sim s m -> reqs m i = Some q -> i < made m.
Proof.
  intros s m i q S R. destruct (le_lt_dec (made m) i) as [L|L]; [|exact L].
  rewrite (sim_fresh _ _ S i L) in R. discriminate.
Qed.

Lemma retire_sim : forall s m i q r st, sim s m -> within m = None ->
  reqs m i = Some q -> objs s i = Some r -> m_ph q = Over st -> m_live q = true ->
  finalize i r s = (fst (finalize i r s), left_handle i q) /\
  sim (fst (finalize i r s)) (retire i q m).
Proof.
  intros s m i q r st S W Q R P L. pose proof (sim_obj _ _ S i) as A. rewrite Q, R in A.
  pose proof A as [A1 [A2 [A3 [A4 [A5 A6]]]]]. rewrite P in A6. destruct A6 as [A6 A7].
  unfold finalize, left_handle, retire. rewrite A2.
  assert (NF : m_ph q <> Flying) by congruence.
  destruct (m_pers q) eqn:PQ; (split; [reflexivity|]); cbn [fst].
  - apply change_sim with (s := s) (r := Some r); auto.
    + cbn. repeat split; auto. congruence.
    + eapply made_lt; eauto.
    + eapply not_open; eauto.
    + intros x. unfold put. destruct (Nat.eqb_spec x i); congruence.
  - apply change_sim with (s := s) (r := None); auto.
    + cbn. split; [reflexivity|exact NF].
    + eapply made_lt; eauto.
    + eapply not_open; eauto.
Qed.

Lemma start_step_sim : forall s m i q, sim s m -> within m = None ->
  phase_of m i = Some (q, Idle) -> exists s', do_start i s = (s', ONone) /\ sim s' (Mpi (upd (reqs m) i (Mq (m_args q) (m_pers q) (begun (m_args q)) true)) (made m)
              (given m ++ gives i (m_args q)) (over m) None).
Proof.
  intros s m i q S W P. pose proof (get_alike s m i S) as G. rewrite P in G.
  destruct G as [r [G [R [Q [PH [L A]]]]]].
  pose proof A as [A1 [A2 [A3 [A4 [A5 A6]]]]]. rewrite PH in A6.
  assert (NF : m_ph q <> Flying) by congruence.
  pose proof (made_lt _ _ _ _ S Q) as LT.
  pose proof (not_open _ _ _ _ S Q NF) as NO.
  unfold do_start. rewrite G, A2, A6, A1. unfold begun, gives.
  destruct (a_peer (m_args q)) as [p|] eqn:PE; eexists; (split; [reflexivity|]).
  - destruct S as [S1 S2 S3 S4 S5 S6 S7 S8 S9 S10 S11]. unfold issue, set_obj.
    constructor; cbn [next ops ended dead objs reqs made given over within inside];
      try assumption; try congruence.
    + intros x. destruct (Nat.eq_dec x i) as [->|N].
      * rewrite put_same, upd_same. cbn. repeat split; auto; congruence.
      * rewrite put_other, upd_other by exact N. apply S5.
    + intros x Lx. rewrite upd_other by lia. apply S6, Lx.
    + intros k x b O. apply open_app in O; [|exact S9]. destruct O as [O|[-> [-> ->]]].
      * destruct (S7 k x b O) as [Lx [q' K]]. split; [lia|]. exists q'.
        rewrite upd_other; [exact K|]. intros ->. apply (NO k b O).
      * split; [exact LT|]. eexists. rewrite upd_same. split; [reflexivity|]. auto.
    + intros k k' x b b' O O'. apply open_app in O; [|exact S9]. apply open_app in O'; [|exact S9].
      destruct O as [O|[-> [-> ->]]], O' as [O'|[-> [E ->]]].
      * eapply S8; eauto.
      * subst x. exfalso. apply (NO k b O).
      * exfalso. apply (NO k' b' O').
      * reflexivity.
    + intros k I. rewrite app_length. apply S9 in I. lia.
    + unfold same_call in *. rewrite W in S11. destruct (inside s); assumption.
  - rewrite app_nil_r.
    assert (K : sim (set_obj i (Some (with_done r true (r_stat r))) s)
      (set_req i (Mq (m_args q) true (Over match a_kind (m_args q) with Snd => Unset | Rcv => Null end) true) m)).
    { apply change_sim with (s := s) (r := Some (with_done r true (r_stat r))); auto.
      cbn. assert (KS : a_kind (m_args q) = Snd).
      { destruct (a_kind (m_args q)) eqn:AK; [reflexivity|]. exfalso. apply (A5 A6 eq_refl eq_refl). }
      rewrite KS. repeat split; auto; congruence. }
    unfold set_req in K. rewrite W in K. exact K.
Qed.

Lemma enter_sim : forall s m c l w, sim s m ->
  (forall i, In i l -> exists q, reqs m i = Some q /\ m_live q = false /\ m_pers q = false) ->
  same_call s (Some c) (Some (l, w)) ->
  sim (enter c s) (set_within (Some (l, w)) m).
Proof.
  intros s m c l w [S1 S2 S3 S4 S5 S6 S7 S8 S9 S10 S11] H C. unfold enter, set_within.
  constructor; cbn [next ops ended dead objs reqs made given over within inside]; auto.
  intros l' w' E. injection E as <- <-. exact H.
Qed.

Lemma post_req : forall a live m,
  exists ph, reqs (new_active a live m) (made m) = Some (Mq a false ph live).
Proof. intros. cbn. rewrite upd_same. eauto. Qed.

Lemma do_enter_sim : forall s m a ign, sim s m -> (a_kind a = Rcv -> a_peer a = None -> ign = false) ->
  exists m', mstep (Enter a ign) (set_within None m) = Some (m', ONone) /\ sim (do_enter a ign s) m'.
Proof.
  intros s m a ign S T. pose proof (sim_next _ _ S) as SN. cbn [mstep set_within within].
  unfold do_enter. destruct (a_peer a) as [p|] eqn:PE.
  - eexists. split; [reflexivity|].
    assert (X : forall c w, same_call (post a false s) (Some c) (Some ([made m], w)) ->
      sim (enter c (post a false s)) (set_within (Some ([made m], w))
        (new_active a false (set_within None m)))).
    { intros c w C. pose proof (post_sim s m a false S) as PS.
      assert (K : sim (enter c (post a false s)) (set_within (Some ([made m], w)) (new_active a false m))).
      { apply enter_sim; auto. intros i [<-|[]]. destruct (post_req a false m) as [ph E].
        eexists. split; [exact E|]. auto. }
      exact K. }
    destruct (a_kind a) eqn:KA; apply X; cbn; rewrite SN; (split; [reflexivity|]);
      (split; [intros i [<-|[]]; rewrite <- SN; apply post_objs|]).
    + auto.
    + destruct ign; cbn; auto 12.
  - eexists. split; [reflexivity|].
    assert (X : forall c w, same_call s (Some c) (Some ([], w)) ->
      sim (enter c s) (set_within (Some ([], w)) (set_within None m))).
    { intros c w C. apply (enter_sim s m c [] w); auto. intros i []. }
    destruct (a_kind a) eqn:KA; apply X; cbn; (split; [reflexivity|]); (split; [intros i []|]).
    + auto.
    + rewrite (T eq_refl eq_refl). auto.
Qed.

Lemma within_id : forall m, within m = None -> set_within None m = m.
Proof. intros [f n g o w] E. cbn in E. subst w. reflexivity. Qed.

Lemma do_enter_sr_sim : forall s m a b ign, sim s m -> within m = None ->
  a_kind a = Snd -> a_kind b = Rcv -> (a_peer b = None -> ign = false) ->
  exists m', mstep (EnterSR a b ign) m = Some (m', ONone) /\ sim (do_enter_sr a b ign s) m'.
Proof.
  intros s m a b ign SS W KA KB T. pose proof (sim_next _ _ SS) as SN.
  destruct (a_peer a) as [p|] eqn:PA, (a_peer b) as [p'|] eqn:PB.
  - cbn [mstep]. rewrite W, PA, PB. eexists. split; [reflexivity|].
    unfold do_enter_sr. rewrite PA, PB. cbn [made new_active].
    replace (S (S (made m)) - made m) with 2 by lia. cbn [seq]. rewrite SN.
    pose proof (post_sim _ _ b false (post_sim s m a false SS)) as PS.
    apply enter_sim; auto.
    + intros i [<-|[<-|[]]]; cbn.
      * rewrite upd_other by lia. rewrite upd_same. eexists. split; [reflexivity|]. auto.
      * rewrite upd_same. eexists. split; [reflexivity|]. auto.
    + cbn. split; [reflexivity|]. split.
      * intros i [<-|[<-|[]]].
        -- apply post_keeps. rewrite <- SN. apply post_objs.
        -- rewrite <- SN, <- (post_next a false s). apply post_objs.
      * destruct ign; cbn; auto 12.
  - cbn [mstep]. rewrite W, PA, PB. eexists. split; [reflexivity|].
    unfold do_enter_sr. rewrite PA, PB. cbn [made new_active].
    replace (S (made m) - made m) with 1 by lia. cbn [seq]. rewrite SN, (T eq_refl).
    apply enter_sim; [apply post_sim, SS| |].
    + intros i [<-|[]]. destruct (post_req a false m) as [ph E]. eexists. split; [exact E|]. auto.
    + cbn. split; [reflexivity|]. split; auto. intros i [<-|[]]. rewrite <- SN. apply post_objs.
  - destruct (do_enter_sim s m b ign SS) as [m' [E K]]; [congruence|].
    rewrite within_id in E by exact W. cbn [mstep] in E |- *. rewrite W, PB, KB in E.
    rewrite W, PA, PB. cbn [made new_active]. replace (S (made m) - made m) with 1 by lia.
    cbn [seq]. unfold do_enter_sr. rewrite PA, PB. exists m'. split; [|exact K]. exact E.
  - destruct (do_enter_sim s m b ign SS) as [m' [E K]]; [auto|].
    rewrite within_id in E by exact W. cbn [mstep] in E |- *. rewrite W, PB, KB in E.
    rewrite W, PA, PB. rewrite Nat.sub_diag. cbn [seq]. unfold do_enter_sr. rewrite PA, PB.
    exists m'. split; [exact E|]. unfold do_enter in K. rewrite PB, KB in K. exact K.
Qed.

Lemma delete_objs : forall l s x,
  objs (delete l s) x = if existsb (Nat.eqb x) l then None else objs s x.
Proof.
  induction l as [|i l IH]; intros s x; [reflexivity|]. cbn [delete fold_left existsb].
  fold (delete l (set_obj i None s)). rewrite IH. cbn [objs set_obj]. unfold put.
  destruct (existsb (Nat.eqb x) l); [rewrite orb_true_r; reflexivity|].
  rewrite orb_false_r. reflexivity.
Qed.
Lemma delete_rest : forall l s, next (delete l s) = next s /\ ops (delete l s) = ops s /\
  ended (delete l s) = ended s /\ dead (delete l s) = dead s /\ inside (delete l s) = inside s.
Proof.
  induction l as [|i l IH]; intros s; [auto|]. cbn [delete fold_left].
  fold (delete l (set_obj i None s)). destruct (IH (set_obj i None s)) as [-> [-> [-> [-> ->]]]]. auto.
Qed.

Lemma leave_sim : forall s m l w, sim s m -> within m = Some (l, w) ->
  forallb (is_over m) l = true -> sim (out_of (delete l s)) (set_within None m).
Proof.
  intros s m l w [S1 S2 S3 S4 S5 S6 S7 S8 S9 S10 S11] W F.
  destruct (delete_rest l s) as [D1 [D2 [D3 [D4 D5]]]]. unfold out_of, set_within.
  constructor; cbn [next ops ended dead objs reqs made given over within inside];
    try assumption; try congruence.
  - intros x. rewrite delete_objs. destruct (existsb (Nat.eqb x) l) eqn:E; [|apply S5].
    apply existsb_exists in E. destruct E as [y [E1 E2]]. apply Nat.eqb_eq in E2. subst y.
    destruct (S10 l w W x E1) as [q [Q1 [Q2 Q3]]]. rewrite Q1. cbn. split; [exact Q2|].
    rewrite forallb_forall in F. specialize (F x E1). unfold is_over in F. rewrite Q1 in F.
    destruct (m_ph q); congruence.
  - exact I.
Qed.

Lemma complete_over : forall s m i, sim s m -> objs s i <> None ->
  (exists q, reqs m i = Some q /\ m_live q = false /\ m_pers q = false) ->
  complete s i = is_over m i.
Proof.
  intros s m i S O [q [Q [L P]]]. pose proof (sim_obj _ _ S i) as A. unfold complete, is_over.
  rewrite Q in *. destruct (objs s i) as [r|]; [|congruence].
  destruct A as [A1 [A2 [A3 [A4 [A5 A6]]]]]. destruct (m_ph q); try congruence.
  destruct A6. assumption.
Qed.

Lemma forallb_ext : forall (A : Type) (f g : A -> bool) l, (forall x, In x l -> f x = g x) ->
  forallb f l = forallb g l.
Proof.
  intros A f g l; induction l as [|x l IH]; intros H; [reflexivity|]. cbn.
  rewrite (H x) by (left; reflexivity). rewrite IH; [reflexivity|]. intros y I. apply H. right. exact I.
Qed.

Lemma do_leave_sim : forall s m, sim s m ->
  match mstep Leave m with
  | None => do_leave s = None
  | Some (m', o) => exists s', do_leave s = Some (s', o) /\ sim s' m'
  end.
Proof.
  intros s m S. pose proof (sim_call _ _ S) as C. pose proof (sim_hidden _ _ S) as H.
  cbn [mstep]. unfold do_leave, same_call in *.
  destruct (inside s) as [c|], (within m) as [[l w]|] eqn:W; try contradiction; [|reflexivity].
  destruct C as [C1 [C2 C3]]. rewrite C1.
  rewrite (forallb_ext _ (complete s) (is_over m)).
  2:{ intros i I. apply complete_over; auto. apply (H l w eq_refl i I). }
  destruct (forallb (is_over m) l) eqn:F; [|reflexivity].
  pose proof (leave_sim s m l w S W F) as LS.
  destruct w as [| |i].
  - destruct C3 as [-> ->]. eauto.
  - destruct C3 as [-> ->]. eauto.
  - destruct C3 as [-> [-> [-> I]]]. eexists. split; [|exact LS].
    do 3 f_equal. pose proof (sim_obj _ _ S i) as A.
    destruct (H l _ eq_refl i I) as [q [Q1 [Q2 Q3]]].
    rewrite forallb_forall in F. specialize (F i I). unfold is_over in F. rewrite Q1 in A, F |- *.
    specialize (C2 i I). destruct (objs s i) as [r|]; [|congruence].
    destruct A as [A1 [A2 [A3 [A4 [A5 A6]]]]]. destruct (m_ph q); try discriminate.
    destruct A6. assumption.
Qed.

Lemma finish_sim : forall s m k n, sim s m ->
  match mstep (Finish k n) m with
  | None => do_finish k n s = None
  | Some (m', o) => exists s', do_finish k n s = Some (s', o) /\ sim s' m'
  end.
Proof.
  intros s m k n S. cbn [mstep]. unfold do_finish. rewrite (sim_ops _ _ S), (sim_ended _ _ S).
  destruct (nth_error (given m) k) as [[i a]|] eqn:N; [|reflexivity].
  destruct (existsb (Nat.eqb k) (over m)) eqn:E; [reflexivity|].
  assert (O : open (given m) (over m) k i a) by (split; assumption).
  destruct (sim_open _ _ S k i a O) as [L [q [Q [P QA]]]]. rewrite Q.
  pose proof (sim_obj _ _ S i) as A. rewrite Q in A.
  destruct (objs s i) as [r|] eqn:R; [|destruct A; congruence].
  eexists. split; [reflexivity|].
  destruct A as [A1 [A2 [A3 [A4 [A5 A6]]]]].
  destruct S as [S1 S2 S3 S4 S5 S6 S7 S8 S9 S10 S11].
  assert (OI : forall k' x b, open (given m) (k :: over m) k' x b -> open (given m) (over m) k' x b /\ k' <> k).
  { intros k' x b [O1 O2]. cbn [existsb] in O2. apply orb_false_iff in O2. destruct O2 as [O2 O3].
    split; [split; assumption|]. apply Nat.eqb_neq, O2. }
  constructor; cbn [next ops ended dead objs reqs made given over within inside];
    try assumption; try congruence.
  - intros x. destruct (Nat.eq_dec x i) as [->|NE].
    + rewrite put_same, upd_same. cbn. rewrite <- QA in *. unfold new_stat.
      destruct (a_kind (m_args q)) eqn:K; repeat split; auto; discriminate.
    + rewrite put_other, upd_other by exact NE. apply S5.
  - intros x Lx. rewrite upd_other by lia. apply S6, Lx.
  - intros k' x b O'. apply OI in O'. destruct O' as [O' NK].
    destruct (S7 k' x b O') as [Lx [q' K]]. split; [exact Lx|]. exists q'.
    rewrite upd_other; [exact K|]. intros ->. apply NK. eapply S8; eauto.
  - intros k1 k2 x b b' O1 O2. apply OI in O1. apply OI in O2. destruct O1, O2. eapply S8; eauto.
  - intros k' [<-|I]; [|apply S9, I]. apply nth_error_Some. congruence.
  - intros l w W x I. destruct (S10 l w W x I) as [q' K]. destruct (Nat.eq_dec x i) as [->|NE].
    + eexists. rewrite upd_same. split; [reflexivity|]. cbn. destruct K as [K1 [K2 K3]].
      rewrite Q in K1. injection K1 as <-. auto.
    + exists q'. rewrite upd_other by exact NE. exact K.
  - unfold same_call in *. destruct (inside s) as [c|], (within m) as [[l w]|]; try assumption.
    destruct S11 as [C1 [C2 C3]]. split; [exact C1|]. split; [|exact C3].
    intros x I. cbn. destruct (Nat.eq_dec x i) as [->|NE].
    + rewrite put_same. discriminate.
    + rewrite put_other by exact NE. apply C2, I.
Qed.

Lemma any_sim : forall s m hs ix, sim s m ->
  Forall (fun h => h = None \/ active_handle m h) hs ->
  match first_over m ix hs with
  | None => first_done s ix hs = (None, false)
  | Some (j, i, q, st) => exists r, first_done s ix hs = (Some (j, i, r), false) /\
      objs s i = Some r /\ reqs m i = Some q /\ m_ph q = Over st /\ m_live q = true /\ r_stat r = st
  end.
Proof.
  intros s m hs; induction hs as [|h hs IH]; intros ix S F; [reflexivity|].
  inversion F as [|? ? F1 F2]; subst. cbn [first_over first_done].
  destruct h as [i|]; [|apply IH; assumption].
  destruct F1 as [F1|F1]; [discriminate|]. unfold active_handle, is_active in F1.
  pose proof (get_alike s m i S) as G. destruct (phase_of m i) as [[q ph]|]; [|discriminate].
  destruct G as [r [G [R [Q [P [L A]]]]]]. rewrite G.
  destruct A as [A1 [A2 [A3 [A4 [A5 A6]]]]]. rewrite P in A6.
  destruct ph; [discriminate| |].
  - rewrite A6. apply IH; assumption.
  - destruct A6 as [A6 A7]. rewrite A6. exists r. auto 10.
Qed.

Ltac finish E K m' :=
  try rewrite E; eexists; (split; [reflexivity|]); (split; [|discriminate]);
  first [ exact K | match goal with |- sim _ ?M =>
    let EM := fresh in
    assert (EM : Some (M, ONone) = Some (m', ONone)) by exact E;
    apply (f_equal (fun o => match o with Some (x, _) => x | None => m' end)) in EM;
    cbv beta iota in EM; rewrite EM; exact K end ].

Lemma step_sim : forall s m x, sim s m -> tidy x m ->
  match mstep x m with
  | None => step x s = None
  | Some (m', o) => exists s', step x s = Some (s', o) /\ sim s' m' /\ o <> OFail
  end.
Proof.
  intros s m x S [T1 T2]. unfold step. rewrite (sim_dead _ _ S).
  pose proof (sim_call _ _ S) as C. pose proof (sim_next _ _ S) as SN.
  destruct x as [a|a|i|h|hs|h|h|a ign|a b ign| |k n].
  all: try (cbn [mstep]; unfold same_call in C;
    destruct (inside s) as [c|] eqn:IN, (within m) as [[l w]|] eqn:W; try contradiction; [reflexivity|]).
  - (* Post *) eexists. split; [rewrite SN; reflexivity|]. split; [apply post_sim, S|discriminate].
  - (* Init *) eexists. split; [rewrite SN; reflexivity|]. split; [|discriminate].
    unfold make, new_idle. apply fresh_sim with (a := a); auto; cbn; [|discriminate].
    repeat split; auto.
  - (* Start *) destruct T1 as [q P]. rewrite P.
    destruct (start_step_sim s m i q S W P) as [s' [E K]]. exists s'. rewrite E.
    split; [reflexivity|]. split; [exact K|discriminate].
  - (* Wait *) unfold active_handle, is_active in T2. destruct h as [i|]; [|discriminate].
    unfold do_wait. pose proof (get_alike s m i S) as G.
    destruct (phase_of m i) as [[q ph]|] eqn:PO; [|discriminate].
    destruct G as [r [G [R [Q [P [L A]]]]]]. rewrite G.
    destruct A as [A1 [A2 [A3 [A4 [A5 A6]]]]]. rewrite P in A6. destruct ph; [discriminate| |].
    + rewrite A6. reflexivity.
    + destruct A6 as [A6 A7]. rewrite A6.
      destruct (retire_sim s m i q r st S W Q R P L) as [E K]. rewrite E, A7.
      eexists. split; [reflexivity|]. split; [exact K|discriminate].
  - (* Any *) destruct T2 as [T2 T3]. pose proof (any_sim s m hs 0 S T2) as G. unfold do_any.
    destruct (first_over m 0 hs) as [[[[j i] q] st]|].
    + destruct G as [r [G [R [Q [P [L A]]]]]]. rewrite G.
      destruct (retire_sim s m i q r st S W Q R P L) as [E K]. rewrite E, A.
      eexists. split; [reflexivity|]. split; [exact K|discriminate].
    + rewrite G, T3. apply existsb_exists in T3. destruct T3 as [h [I1 I2]].
      destruct (forallb _ hs) eqn:FB; [|reflexivity].
      rewrite forallb_forall in FB. specialize (FB h I1). destruct h; [discriminate|discriminate I2].
  - (* Test *) destruct T2 as [T2 T3]. unfold active_handle, is_active in T2.
    destruct h as [i|]; [|discriminate]. unfold do_test. pose proof (get_alike s m i S) as G.
    destruct (phase_of m i) as [[q ph]|] eqn:PO; [|discriminate].
    specialize (T3 i q ph eq_refl PO). destruct G as [r [G [R [Q [P [L A]]]]]]. rewrite G.
    pose proof A as [A1 [A2 [A3 [A4 [A5 A6]]]]]. rewrite P in A6. destruct ph; [discriminate| |].
    + rewrite A6. eexists. split; [reflexivity|]. split; [exact S|discriminate].
    + destruct A6 as [A6 A7]. rewrite A6, A7.
      destruct (retire_sim s m i q r st S W Q R P L) as [E K]. unfold finalize in K.
      rewrite A2, T3 in K. unfold left_handle. rewrite T3.
      eexists. split; [reflexivity|]. split; [exact K|discriminate].
  - (* Free *) destruct T1 as [i [-> T1]]. cbn in T1. unfold do_free.
    pose proof (get_alike s m i S) as G. destruct (phase_of m i) as [[q ph]|] eqn:PO; [|congruence].
    destruct G as [r [G [R [Q [P [L A]]]]]]. rewrite G.
    pose proof A as [A1 [A2 [A3 [A4 [A5 A6]]]]]. rewrite P in A6.
    assert (X : forall r', alike r' (Some (Mq (m_args q) (m_pers q) ph false)) ->
      (ph = Flying -> r' <> None) ->
      sim (set_obj i r' s) (set_req i (Mq (m_args q) (m_pers q) ph false) m)).
    { intros r' AL NN. destruct S as [S1 S2 S3 S4 S5 S6 S7 S8 S9 S10 S11].
      unfold set_obj, set_req.
      constructor; cbn [next ops ended dead objs reqs made given over within inside];
        try assumption; try congruence.
      - intros x. destruct (Nat.eq_dec x i) as [->|N].
        + rewrite put_same, upd_same. exact AL.
        + rewrite put_other, upd_other by exact N. apply S5.
      - intros x Lx. destruct (Nat.eq_dec x i) as [->|N].
        + rewrite S6 in Q by exact Lx. discriminate.
        + rewrite upd_other by exact N. apply S6, Lx.
      - intros k x b O. destruct (S7 k x b O) as [Lx [q' K]]. split; [exact Lx|].
        destruct (Nat.eq_dec x i) as [->|N].
        + eexists. rewrite upd_same. split; [reflexivity|]. cbn. destruct K as [K1 [K2 K3]].
          rewrite Q in K1. injection K1 as <-. split; congruence.
        + exists q'. rewrite upd_other by exact N. exact K.
      - unfold same_call. rewrite W, IN. exact I. }
    destruct (r_done r) eqn:D; eexists; (split; [reflexivity|]); (split; [|discriminate]); apply X.
    + cbn. split; [reflexivity|]. intros ->. congruence.
    + intros ->. congruence.
    + cbn. destruct ph; repeat split; auto. destruct A6; congruence. destruct A6; congruence.
    + discriminate.
  - (* Enter *) destruct (do_enter_sim s m a ign S) as [m' [E K]].
    { exact T2. }
    rewrite within_id in E by exact W. cbn [mstep] in E. rewrite W in E. finish E K m'.
  - (* EnterSR *) destruct T1 as [KA KB].
    destruct (do_enter_sr_sim s m a b ign S W KA KB T2) as [m' [E K]].
    cbn [mstep] in E. rewrite W in E. finish E K m'.
  - (* Leave *) pose proof (do_leave_sim s m S) as G. destruct (mstep Leave m) as [[m' o]|] eqn:M; [|exact G].
    destruct G as [s' [G K]]. exists s'. split; [exact G|]. split; [exact K|].
    cbn [mstep] in M. destruct (within m) as [[l w]|]; [|discriminate].
    destruct (forallb (is_over m) l); [|discriminate]. injection M as <- <-. destruct w; discriminate.
  - (* Finish *) pose proof (finish_sim s m k n S) as G.
    destruct (mstep (Finish k n) m) as [[m' o]|] eqn:M; [|exact G].
    destruct G as [s' [G K]]. exists s'. split; [exact G|]. split; [exact K|].
    cbn [mstep] in M. destruct (nth_error (given m) k) as [[i a]|]; [|discriminate].
    destruct (existsb _ (over m)); [discriminate|]. destruct (reqs m i); [|discriminate].
    injection M as <- <-. discriminate.
Qed.
