(* Property C150: polling loops see their message. *)
From Coq Require Import List Bool Arith Lia.
Import ListNotations.
From Verif Require Import PoModel.

(* messages come in the order of their times *)
Fixpoint in_order (l : list (nat * nat)) : Prop :=
  match l with
  | [] => True
  | x :: r => (forall y, In y r -> fst x <= fst y) /\ in_order r
  end.

Lemma whole_timeout : forall d, whole_us d <> 0 -> 1000 <= timeout d.
Proof. intros d H. unfold timeout. lia. Qed.

(* what one unsuccessful call and the computation do *)
Lemma forward_progress : forall T s a m, 0 < T -> In (a, m) (inbox s) -> in_order (inbox s) ->
  let s' := forward T s in
  in_order (inbox s') /\
  ((seen m s' = true /\ a <= now s' /\ (now s' = now s \/ now s' = a)) \/
   (In (a, m) (inbox s') /\
    ((S (length (inbox s')) = length (inbox s) /\ now s <= now s' /\ (now s' = now s \/ now s' <= a)) \/
     (length (inbox s') = length (inbox s) /\ now s' = now s + T /\ now s' < a)))).
Proof.
  intros T s a m HT I O. unfold forward, find_any.
  destruct (inbox s) as [|[a1 m1] r] eqn:E; [destruct I|].
  destruct O as [O1 O2]. cbn [fst] in O1.
  assert (LE : a1 <= a). { destruct I as [I|I]; [injection I; lia|]. apply (O1 (a, m) I). }
  destruct (Nat.leb_spec a1 (now s)) as [L|L]; [|destruct (Nat.leb_spec a1 (now s + T)) as [L2|L2]];
    cbn [inbox now handled].
  - split; [exact O2|]. destruct I as [I|I].
    + injection I as -> ->. left. unfold seen. cbn. rewrite Nat.eqb_refl. auto.
    + right. split; [exact I|]. left. cbn. lia.
  - split; [exact O2|]. destruct I as [I|I].
    + injection I as -> ->. left. unfold seen. cbn. rewrite Nat.eqb_refl. auto.
    + right. split; [exact I|]. left. cbn. lia.
  - split; [split; assumption|]. right. split; [exact I|]. right. cbn. lia.
Qed.

Lemma seen_mono : forall T m s, seen m s = true -> seen m (forward T s) = true.
Proof.
  intros T m s H. unfold forward, find_any, seen in *. destruct (inbox s) as [|[a1 m1] r].
  - exact H.
  - destruct (a1 <=? now s); [|destruct (a1 <=? now s + T)]; cbn; rewrite ?H, ?orb_true_r; reflexivity.
Qed.

(* The number of calls that are enough: one for every message there is, one for every
   time-out before the message comes, and two. *)
Definition enough (s : rank) (a T : nat) : nat := length (inbox s) + (a - now s) / T + 2.

Lemma test_loop : forall d m c a fuel s, 1000 <= timeout d -> whole_us d <> 0 ->
  in_order (inbox s) ->
  ((seen m s = true /\ 1 <= fuel) \/ (In (a, m) (inbox s) /\ enough s a (timeout d) <= fuel)) ->
  exists n s', n <= fuel /\ poll (test d m) c n s = (s', true) /\ seen m s' = true.
Proof.
  intros d m c a; induction fuel as [|fuel IH]; intros s T W O H.
  - destruct H as [[_ H]|[_ H]]; unfold enough in *; lia.
  - destruct (seen m s) eqn:SN.
    { exists 1, s. split; [lia|]. cbn. unfold test. rewrite SN. auto. }
    destruct H as [[H _]|[I B]]; [discriminate|].
    pose proof (forward_progress (timeout d) s a m ltac:(lia) I O) as F. cbv zeta in F.
    destruct F as [O' F].
    assert (K : exists n s', n <= fuel /\ poll (test d m) c n (compute c (forward (timeout d) s)) = (s', true)
      /\ seen m s' = true).
    { apply IH; auto. unfold enough in *. cbn [compute inbox now].
      destruct F as [[F1 _]|[F1 F2]].
      - left. split; [exact F1|]. lia.
      - right. split; [exact F1|].
        destruct F2 as [[F2 [F3 _]]|[F2 [F3 F4]]].
        + assert ((a - (now (forward (timeout d) s) + c)) / timeout d <= (a - now s) / timeout d)
            by (apply Nat.div_le_mono; lia). lia.
        + assert ((a - (now (forward (timeout d) s) + c)) / timeout d + 1 <= (a - now s) / timeout d).
          { replace ((a - now s) / timeout d) with ((a - now s - timeout d) / timeout d + 1).
            - apply Nat.add_le_mono_r, Nat.div_le_mono; lia.
            - replace (a - now s) with (a - now s - timeout d + 1 * timeout d) at 2 by lia.
              rewrite Nat.div_add by lia. reflexivity. }
          lia. }
    destruct K as [n [s' [K1 [K2 K3]]]]. exists (S n), s'. split; [lia|]. split; [|exact K3].
    cbn [poll]. unfold test at 1. rewrite SN.
    destruct (Nat.eqb_spec (whole_us d) 0); [contradiction|]. exact K2.
Qed.

(* With a delay of at least a microsecond a loop of MPI_Test ends, whatever else arrives
   and whatever the program computes between two calls. *)
Theorem test_poll_partial : forall d m c a s, 1000 <= d ->
  In (a, m) (inbox s) -> in_order (inbox s) ->
  exists n s', n <= enough s a (d / 1000 * 1000) /\ poll (test d m) c n s = (s', true) /\
    In m (handled s').
Proof.
  intros d m c a s D I O.
  assert (W : whole_us d <> 0).
  { unfold whole_us. assert (1 <= d / 1000) by (apply Nat.div_le_lower_bound; lia). lia. }
  destruct (test_loop d m c a (enough s a (timeout d)) s (whole_timeout d W) W O) as [n [s' [K1 [K2 K3]]]].
  - right. split; [exact I|lia].
  - exists n, s'. split; [exact K1|]. split; [exact K2|].
    apply existsb_exists in K3. destruct K3 as [y [Y1 Y2]]. apply Nat.eqb_eq in Y2. subst y. exact Y1.
Qed.
Print Assumptions test_poll_partial.

Lemma iprobe_test : forall d m c n s s', poll (test d m) c n s = (s', true) ->
  exists k s'', k <= n /\ poll (iprobe d m) c k s = (s'', true) /\ seen m s'' = true.
Proof.
  intros d m c; induction n as [|n IH]; intros s s' H; cbn [poll] in H; [discriminate|].
  unfold test in H at 1. destruct (seen m s) eqn:SN.
  - exists 1, s. split; [lia|]. cbn. unfold iprobe. rewrite SN. auto.
  - destruct (whole_us d =? 0) eqn:W.
    + destruct (IH _ _ H) as [k [s2 [K1 [K2 K3]]]]. exists (S k), s2. split; [lia|]. split; [|exact K3].
      cbn [poll]. unfold iprobe at 1. rewrite SN, W. exact K2.
    + destruct (seen m (forward (timeout d) s)) eqn:SF.
      * exists 1, (forward (timeout d) s). split; [lia|]. cbn. unfold iprobe. rewrite SN, W, SF. auto.
      * destruct (IH _ _ H) as [k [s2 [K1 [K2 K3]]]]. exists (S k), s2. split; [lia|]. split; [|exact K3].
        cbn [poll]. unfold iprobe at 1. rewrite SN, W, SF. exact K2.
Qed.

(* The same for MPI_Iprobe. *)
Theorem iprobe_poll_partial : forall d m c a s, 1000 <= d ->
  In (a, m) (inbox s) -> in_order (inbox s) ->
  exists n s', n <= enough s a (d / 1000 * 1000) /\ poll (iprobe d m) c n s = (s', true) /\
    In m (handled s').
Proof.
  intros d m c a s D I O. destruct (test_poll_partial d m c a s D I O) as [n [s' [K1 [K2 _]]]].
  destruct (iprobe_test d m c n s s' K2) as [k [s2 [E1 [E2 E3]]]].
  exists k, s2. split; [lia|]. split; [exact E2|].
  apply existsb_exists in E3. destruct E3 as [y [Y1 Y2]]. apply Nat.eqb_eq in Y2. subst y. exact Y1.
Qed.
Print Assumptions iprobe_poll_partial.

(* No call reports a message before it has arrived. *)
Definition no_future (s0 s : rank) : Prop :=
  now s0 <= now s /\
  (forall x, In x (inbox s) -> In x (inbox s0)) /\
  forall m, In m (handled s) -> In m (handled s0) \/ exists a, In (a, m) (inbox s0) /\ a <= now s.

Lemma no_future_refl : forall s, no_future s s.
Proof. intros s. split; [lia|]. auto. Qed.

Lemma forward_no_future : forall T s0 s, no_future s0 s -> no_future s0 (forward T s).
Proof.
  intros T s0 s [H0 [H1 H2]]. unfold forward, find_any. destruct (inbox s) as [|[a1 m1] r] eqn:E.
  - split; [cbn; lia|]. split; [intros x []|]. cbn. intros m I. destruct (H2 m I) as [K|[a [K1 K2]]]; auto.
    right. exists a. split; [exact K1|lia].
  - destruct (Nat.leb_spec a1 (now s)) as [L|L]; [|destruct (Nat.leb_spec a1 (now s + T)) as [L2|L2]];
      (split; [cbn; lia|]); split; cbn [inbox handled now].
    + intros x I. apply H1. right. exact I.
    + intros m [<-|I].
      * right. exists a1. split; [apply H1; left; reflexivity|exact L].
      * auto.
    + intros x I. apply H1. right. exact I.
    + intros m [<-|I].
      * right. exists a1. split; [apply H1; left; reflexivity|lia].
      * destruct (H2 m I) as [K|[a [K1 K2]]]; auto. right. exists a. split; [exact K1|lia].
    + intros x I. apply H1. exact I.
    + intros m I. destruct (H2 m I) as [K|[a [K1 K2]]]; auto. right. exists a. split; [exact K1|lia].
Qed.

Lemma compute_no_future : forall c s0 s, no_future s0 s -> no_future s0 (compute c s).
Proof.
  intros c s0 s [H0 [H1 H2]]. split; [cbn; lia|]. split; [exact H1|]. cbn. intros m I.
  destruct (H2 m I) as [K|[a [K1 K2]]]; auto. right. exists a. split; [exact K1|lia].
Qed.

Lemma poll_no_future : forall call c, (forall s0 s, no_future s0 s -> no_future s0 (fst (call s))) ->
  forall n s0 s, no_future s0 s -> no_future s0 (fst (poll call c n s)).
Proof.
  intros call c H; induction n as [|n IH]; intros s0 s K; cbn [poll]; [exact K|].
  specialize (H s0 s K). destruct (call s) as [s1 f]. cbn [fst] in H.
  destruct f; [exact H|]. apply IH, compute_no_future, H.
Qed.

Theorem poll_not_early : forall d m c n s s', ~ In m (handled s) ->
  (poll (test d m) c n s = (s', true) \/ poll (iprobe d m) c n s = (s', true)) ->
  exists a, In (a, m) (inbox s) /\ a <= now s'.
Proof.
  intros d m c n s s' NI H.
  assert (S : seen m s' = true /\ no_future s s').
  { assert (ST : forall s0 s, no_future s0 s -> no_future s0 (fst (test d m s))).
    { intros s0 x K. unfold test. destruct (seen m x); [exact K|].
      destruct (whole_us d =? 0); [exact K|]. apply forward_no_future, K. }
    assert (SI : forall s0 s, no_future s0 s -> no_future s0 (fst (iprobe d m s))).
    { intros s0 x K. unfold iprobe. destruct (seen m x); [exact K|].
      destruct (whole_us d =? 0); [exact K|]. apply forward_no_future, K. }
    destruct H as [H|H].
    - split; [|pose proof (poll_no_future _ c ST n s s (no_future_refl s)) as P; rewrite H in P; exact P].
      clear - H. revert s H. induction n as [|n IH]; intros s H; cbn [poll] in H; [discriminate|].
      unfold test in H at 1. destruct (seen m s) eqn:SN; [injection H as <-; exact SN|].
      destruct (whole_us d =? 0); eapply IH, H.
    - split; [|pose proof (poll_no_future _ c SI n s s (no_future_refl s)) as P; rewrite H in P; exact P].
      clear - H. revert s H. induction n as [|n IH]; intros s H; cbn [poll] in H; [discriminate|].
      unfold iprobe in H at 1. destruct (seen m s) eqn:SN; [injection H as <-; exact SN|].
      destruct (whole_us d =? 0); [eapply IH, H|].
      destruct (seen m (forward (timeout d) s)) eqn:SF; [injection H as <-; exact SF|]. eapply IH, H. }
  destruct S as [S1 [_ [_ S2]]].
  apply existsb_exists in S1. destruct S1 as [y [Y1 Y2]]. apply Nat.eqb_eq in Y2. subst y.
  destruct (S2 m Y1) as [K|K]; [contradiction|exact K].
Qed.
Print Assumptions poll_not_early.

(* With a delay below one microsecond, as the default of MPI_Iprobe (0 s), no call ever
   handles a message: the loop never ends, even if the message came long ago and the
   program computes between the calls; without computing the clock stands still. *)
Lemma blind : forall d m c n s, whole_us d = 0 -> seen m s = false ->
  poll (test d m) c n s = (Rank (now s + n * c) (inbox s) (handled s), false) /\
  poll (iprobe d m) c n s = (Rank (now s + n * c) (inbox s) (handled s), false).
Proof.
  intros d m c; induction n as [|n IH]; intros s W SN; cbn [poll].
  - rewrite Nat.add_0_r. destruct s; auto.
  - unfold test at 1, iprobe at 1. rewrite SN, W. cbn [Nat.eqb].
    destruct (IH (compute c s) W SN) as [-> ->]. cbn [compute now inbox handled].
    replace (now s + c + n * c) with (now s + S n * c) by lia. auto.
Qed.

Theorem poll_blind_refuted : exists d m a s, 0 < d /\ In (a, m) (inbox s) /\ in_order (inbox s) /\
  a <= now s /\ forall c n,
  snd (poll (test d m) c n s) = false /\ snd (poll (iprobe d m) c n s) = false /\
  snd (poll (iprobe 0 m) c n s) = false /\ now (fst (poll (iprobe 0 m) 0 n s)) = now s.
Proof.
  exists 500, 7, 10, (Rank 20 [(10, 7)] []).
  split; [lia|]. split; [left; reflexivity|]. split; [cbn; split; [intros y []|exact I]|].
  split; [cbn; lia|]. intros c n.
  assert (W : whole_us 500 = 0) by reflexivity. assert (W0 : whole_us 0 = 0) by reflexivity.
  destruct (blind 500 7 c n (Rank 20 [(10, 7)] []) W eq_refl) as [-> ->].
  destruct (blind 0 7 c n (Rank 20 [(10, 7)] []) W0 eq_refl) as [_ ->].
  destruct (blind 0 7 0 n (Rank 20 [(10, 7)] []) W0 eq_refl) as [_ ->].
  cbn [fst snd now]. rewrite Nat.mul_0_r, Nat.add_0_r. auto.
Qed.
Print Assumptions poll_blind_refuted.

(* 1.5 us is one whole microsecond: message 2 arrives at 2500 after message 1 at 400. *)
Example poll_example :
  poll (test 1500 2) 100 9 (Rank 0 [(400, 1); (2500, 2)] []) = (Rank 2600 [] [2; 1], true) /\
  poll (iprobe 1500 2) 100 9 (Rank 0 [(400, 1); (2500, 2)] []) = (Rank 2500 [] [2; 1], true).
Proof. split; vm_compute; reflexivity. Qed.
