(* The weighted round-robin arbitrator keeps its packets and its credits. *)
From Coq Require Import List ZArith Bool Arith Lia Permutation.
From Verif Require Import PtModel PtProp SpModel SpSpec SpProof SpArb.
Import ListNotations.
Local Open Scope Z_scope.

(* ---------- priority queues ---------- *)

Lemma tops_some : forall before q, (forall l, before l l = false) ->
  (forall l m k, before l m = true -> before m k = true -> before l k = true) ->
  q <> [] -> tops before q <> [].
Proof.
  intros before q IR TR NE.
  assert (M : exists l, In l q /\ forall m, In m q -> before m l = false).
  { clear -IR TR NE. induction q as [|x q IH]; [congruence|]. destruct q as [|y q].
    - exists x. split; [left; reflexivity|]. intros m [<-|[]]. apply IR.
    - destruct IH as [l [L1 L2]]; [discriminate|]. destruct (before x l) eqn:B.
      + exists x. split; [left; reflexivity|]. intros m [<-|M]; [apply IR|].
        destruct (before m x) eqn:B2; [|reflexivity]. specialize (L2 m M).
        rewrite (TR _ _ _ B2 B) in L2. discriminate.
      + exists l. split; [right; exact L1|]. intros m [<-|M]; [exact B|apply L2; exact M]. }
  destruct M as [l [L1 L2]]. intro E. assert (I : In l (tops before q)).
  { apply filter_In. split; [exact L1|]. apply forallb_forall. intros m M. rewrite L2; auto. }
  rewrite E in I. destruct I.
Qed.

Lemma top_spec : forall before tie q l, top before tie q = Some l ->
  In l q /\ forall m, In m q -> before m l = false.
Proof.
  intros before tie q l H. apply nth_error_In in H. apply filter_In in H as [H1 H2]. split; [exact H1|].
  intros m M. rewrite forallb_forall in H2. specialize (H2 m M). destruct (before m l); [discriminate|reflexivity].
Qed.

Lemma top_some : forall before tie q, (forall l, before l l = false) ->
  (forall l m k, before l m = true -> before m k = true -> before l k = true) ->
  q <> [] -> exists l, top before tie q = Some l.
Proof.
  intros before tie q IR TR NE. pose proof (tops_some before q IR TR NE) as T. unfold top.
  destruct (nth_error (tops before q) (tie mod length (tops before q))) as [l|] eqn:E; [eauto|].
  apply nth_error_None in E. assert (length (tops before q) <> 0)%nat by (destruct (tops before q); cbn; [congruence|lia]).
  pose proof (Nat.mod_upper_bound tie (length (tops before q)) H). lia.
Qed.

Lemma cap_before_irr : forall a l, cap_before a l l = false.
Proof. intros. unfold cap_before. lia. Qed.
Lemma cap_before_tr : forall a l m k, cap_before a l m = true -> cap_before a m k = true -> cap_before a l k = true.
Proof. unfold cap_before. intros. lia. Qed.
Lemma queue_before_irr : forall a l, queue_before a l l = false.
Proof. intros. unfold queue_before. try destruct (_ =? _) eqn:?; lia. Qed.
Lemma queue_before_tr : forall a l m k, queue_before a l m = true -> queue_before a m k = true -> queue_before a l k = true.
Proof.
  unfold queue_before. intros a l m k.
  destruct (wl_prio (wl a l) =? wl_prio (wl a m)) eqn:E1, (wl_prio (wl a m) =? wl_prio (wl a k)) eqn:E2,
    (wl_prio (wl a l) =? wl_prio (wl a k)) eqn:E3; intros; lia.
Qed.

Lemma drop_perm : forall l q, NoDup q -> In l q -> Permutation q (l :: drop l q).
Proof.
  intros l. unfold drop. induction q as [|x q IH]; intros N H; [destruct H|]. inversion N; subst. cbn.
  destruct (Nat.eq_dec l x) as [->|NE].
  - constructor. rewrite notin_remove by assumption. reflexivity.
  - destruct H as [H|H]; [congruence|]. apply (Permutation_trans (l' := x :: l :: remove Nat.eq_dec l q)).
    + constructor. apply IH; assumption.
    + apply perm_swap.
Qed.

Lemma filter_split : forall X (b : X -> bool) l, Permutation (filter b l ++ filter (fun x => negb (b x)) l) l.
Proof.
  intros X b. induction l as [|x l IH]; [constructor|]. cbn. destruct (b x); cbn.
  - constructor. exact IH.
  - apply Permutation_sym. apply (Permutation_trans (l' := x :: filter b l ++ filter (fun x => negb (b x)) l)).
    + constructor. apply Permutation_sym, IH.
    + apply Permutation_middle.
Qed.

(* ---------- the invariant ---------- *)

Definition entries (a : wrr) : list nat := w_queue a ++ w_cap a.
Definition inq (a : wrr) (l : nat) : bool := existsb (Nat.eqb l) (entries a).

Lemma inq_in : forall a l, inq a l = true <-> In l (entries a).
Proof.
  intros. unfold inq. rewrite existsb_exists. split.
  - intros [x [H E]]. apply Nat.eqb_eq in E. subst. exact H.
  - intro H. exists l. split; [exact H|apply Nat.eqb_refl].
Qed.

(* A lane: in a queue with its first packet paid for, or waiting for credits. *)
Definition lane_ok (n l : nat) (q : list spkt) (c : Z) (st b : bool) : Prop :=
  0 <= c /\ (forall p, In p q -> s_lane p = l /\ (l < n)%nat /\ 0 <= s_bytes p) /\
  match q with
  | [] => st = false /\ b = false
  | p :: _ => st = false /\ b = true \/ st = true /\ b = false /\ c < s_bytes p
  end.
Record wrr_ok (n : nat) (a : wrr) : Prop := {
  wo_len : length (w_vls a) = n;
  wo_nodup : NoDup (entries a);
  wo_lane : forall l, lane_ok n l (wl_pending (wl a l)) (wl_credits (wl a l)) (wl_stalled (wl a l)) (inq a l)
}.
Definition wrr_held (a : wrr) : list spkt := concat (map wl_pending (w_vls a)).
Definition set_aside (b : bool) (q : list spkt) : Z := if b then bsum (firstn 1 q) else 0.
Definition unpaid (b : bool) (q : list spkt) : list spkt := if b then tl q else q.
Definition wrr_purse (a : wrr) (l : nat) : Z := wl_credits (wl a l) + set_aside (inq a l) (wl_pending (wl a l)).
Definition wrr_waiting (a : wrr) (l : nat) : list spkt := unpaid (inq a l) (wl_pending (wl a l)).

Lemma wl_set : forall a l v m, (l < length (w_vls a))%nat -> wl (set_wl a l v) m = if (m =? l)%nat then v else wl a m.
Proof. intros. unfold wl, set_wl. cbn. apply nth_set_nth. assumption. Qed.

(* How an action changes one lane: its packets, credits, stalled flag, and whether it
   enters (In) or leaves (Out) the queues. *)
Inductive moves : Type := Stay | In_ | Out.
Record changes (a a' : wrr) (l : nat) (q : list spkt) (c : Z) (st : bool) (m : moves) : Prop := {
  ch_len : length (w_vls a') = length (w_vls a);
  ch_pend : wl_pending (wl a' l) = q;
  ch_cred : wl_credits (wl a' l) = c;
  ch_stal : wl_stalled (wl a' l) = st;
  ch_other : forall k, k <> l -> wl_pending (wl a' k) = wl_pending (wl a k) /\
    wl_credits (wl a' k) = wl_credits (wl a k) /\ wl_stalled (wl a' k) = wl_stalled (wl a k);
  ch_held : (l < length (w_vls a))%nat -> Permutation (wl_pending (wl a l) ++ wrr_held a') (q ++ wrr_held a);
  ch_entries : match m with
               | Stay => Permutation (entries a') (entries a)
               | In_ => Permutation (entries a') (l :: entries a)
               | Out => Permutation (entries a) (l :: entries a')
               end
}.

Lemma entries_inq : forall a a' k, (In k (entries a') <-> In k (entries a)) -> inq a' k = inq a k.
Proof.
  intros a a' k H. destruct (inq a k) eqn:E.
  - apply inq_in. apply H. apply inq_in. exact E.
  - destruct (inq a' k) eqn:E'; [|reflexivity]. apply inq_in in E'. apply H in E'. apply inq_in in E'. congruence.
Qed.

Lemma changes_ok : forall n a a' l q c st m, wrr_ok n a -> (l < n)%nat -> changes a a' l q c st m ->
  (match m with Stay => True | In_ => inq a l = false | Out => inq a l = true end) ->
  let b := match m with Stay => inq a l | In_ => true | Out => false end in
  lane_ok n l q c st b ->
  wrr_ok n a' /\ inq a' l = b /\ (forall k, k <> l -> inq a' k = inq a k /\ 
    wrr_purse a' k = wrr_purse a k /\ wrr_waiting a' k = wrr_waiting a k) /\
  wrr_purse a' l = c + set_aside b q /\ wrr_waiting a' l = unpaid b q.
Proof.
  intros n a a' l q c st m [k1 k2 k3] LN [h1 h2 h3 h4 h5 h6 h7] M b LO.
  assert (IK : forall k, k <> l -> inq a' k = inq a k).
  { intros k K. apply entries_inq. destruct m.
    - split; apply Permutation_in; [exact h7|apply Permutation_sym; exact h7].
    - split; intro H.
      + apply (Permutation_in _ h7) in H. destruct H; [congruence|assumption].
      + apply (Permutation_in _ (Permutation_sym h7)). right. exact H.
    - split; intro H.
      + apply (Permutation_in _ (Permutation_sym h7)). right. exact H.
      + apply (Permutation_in _ h7) in H. destruct H; [congruence|assumption]. }
  assert (ND : NoDup (entries a')).
  { destruct m.
    - apply (Permutation_NoDup (Permutation_sym h7)). exact k2.
    - apply (Permutation_NoDup (Permutation_sym h7)). constructor; [|exact k2].
      intro H. apply inq_in in H. congruence.
    - apply (Permutation_NoDup h7) in k2. inversion k2. assumption. }
  assert (IL : inq a' l = b).
  { unfold b. destruct m.
    - apply entries_inq. split; apply Permutation_in; [exact h7|apply Permutation_sym; exact h7].
    - apply inq_in. apply (Permutation_in _ (Permutation_sym h7)). left. reflexivity.
    - destruct (inq a' l) eqn:E; [|reflexivity]. apply inq_in in E.
      apply (Permutation_NoDup h7) in k2. inversion k2. congruence. }
  split; [split|split; [exact IL|split; [|split]]].
  - congruence.
  - exact ND.
  - intro k. destruct (Nat.eq_dec k l) as [->|NE].
    + rewrite h2, h3, h4, IL. exact LO.
    + destruct (h5 k NE) as [-> [-> ->]]. rewrite (IK k NE). apply k3.
  - intros k NE. unfold wrr_purse, wrr_waiting. destruct (h5 k NE) as [-> [-> _]]. rewrite (IK k NE). auto.
  - unfold wrr_purse. rewrite h2, h3, IL. reflexivity.
  - unfold wrr_waiting. rewrite h2, IL. reflexivity.
Qed.

Lemma set_changes : forall a l v, (l < length (w_vls a))%nat ->
  changes a (set_wl a l v) l (wl_pending v) (wl_credits v) (wl_stalled v) Stay.
Proof.
  intros a l v H. split; try (rewrite wl_set by assumption; rewrite Nat.eqb_refl; reflexivity).
  - cbn. apply set_nth_length.
  - intros k K. rewrite wl_set by assumption. destruct (Nat.eqb_spec k l); [congruence|auto].
  - intros _. unfold wrr_held. apply (concat_set_perm _ wl_pending (w_vls a) l v no_wlane H).
  - reflexivity.
Qed.

Lemma changes_queue : forall a a' l q c st, changes a a' l q c st Stay -> changes a (to_queue a' l) l q c st In_.
Proof.
  intros a a' l q c st []. split; auto. unfold entries in *. cbn. rewrite <- app_assoc. cbn.
  apply Permutation_sym. apply (Permutation_trans (l' := l :: w_queue a' ++ w_cap a')).
  - constructor. apply Permutation_sym. exact ch_entries0.
  - apply Permutation_middle.
Qed.

Lemma changes_cap : forall a a' l q c st, changes a a' l q c st Stay -> changes a (to_cap a' l) l q c st In_.
Proof.
  intros a a' l q c st []. split; auto. unfold entries in *. cbn. rewrite app_assoc.
  apply Permutation_sym. apply (Permutation_trans (l' := l :: w_queue a' ++ w_cap a')).
  - constructor. apply Permutation_sym. exact ch_entries0.
  - apply Permutation_cons_append.
Qed.

(* A step that rewrites one lane and may put it into a queue *)
Ltac one_lane H :=
  first [apply changes_queue | apply changes_cap | idtac];
  match goal with |- changes _ (set_wl ?a ?l ?x) _ _ _ _ _ => exact (set_changes a l x H) end.

Lemma enter_changes : forall t p a, (s_lane p < length (w_vls a))%nat ->
  changes a (wrr_enter t p a) (s_lane p) (wl_pending (wl a (s_lane p)))
    (wl_credits (wl a (s_lane p)) - s_bytes p) (wl_stalled (wl a (s_lane p))) In_.
Proof.
  intros t p a H. unfold wrr_enter. set (v := add_wcredits _ _).
  replace (wl_credits (wl a (s_lane p)) - s_bytes p) with (wl_credits v) by (cbn; lia).
  change (wl_pending (wl a (s_lane p))) with (wl_pending v).
  change (wl_stalled (wl a (s_lane p))) with (wl_stalled v).
  destruct (wl_sel v).
  - one_lane H.
  - try destruct (t <? wl_next v); one_lane H.
  - one_lane H.
Qed.

Lemma pending_changes : forall a a' l q c st m q', changes a a' l q c st m -> (l < length (w_vls a))%nat ->
  changes a (set_wl a' l (set_pending (wl a' l) q')) l q' c st m.
Proof.
  intros a a' l q c st m q' [h1 h2 h3 h4 h5 h6 h7] H.
  assert (H' : (l < length (w_vls a'))%nat) by lia.
  split; try (rewrite wl_set by assumption; rewrite Nat.eqb_refl; cbn; assumption || reflexivity).
  - cbn. rewrite set_nth_length. exact h1.
  - intros k K. rewrite wl_set by assumption. destruct (Nat.eqb_spec k l); [congruence|auto].
  - intros _. specialize (h6 H).
    pose proof (concat_set_perm _ wl_pending (w_vls a') l (set_pending (wl a' l) q') no_wlane H') as P.
    cbn in P. change (nth l (w_vls a') no_wlane) with (wl a' l) in P. rewrite h2 in P.
    unfold wrr_held in *. cbn [set_wl w_vls].
    apply (Permutation_app_inv_l q).
    apply (Permutation_trans (l' := wl_pending (wl a l) ++ q ++ concat (map wl_pending (set_nth (w_vls a') l (set_pending (wl a' l) q'))))).
    { rewrite !app_assoc. apply Permutation_app_tail, Permutation_app_comm. }
    apply (Permutation_trans (l' := wl_pending (wl a l) ++ q' ++ concat (map wl_pending (w_vls a')))).
    { apply Permutation_app_head. exact P. }
    apply (Permutation_trans (l' := q' ++ wl_pending (wl a l) ++ concat (map wl_pending (w_vls a')))).
    { rewrite !app_assoc. apply Permutation_app_tail, Permutation_app_comm. }
    apply (Permutation_trans (l' := q' ++ q ++ concat (map wl_pending (w_vls a)))).
    { apply Permutation_app_head. exact h6. }
    rewrite !app_assoc. apply Permutation_app_tail, Permutation_app_comm.
  - exact h7.
Qed.

Lemma inq_lt : forall n a l, wrr_ok n a -> inq a l = true -> (l < n)%nat /\ wl_stalled (wl a l) = false /\
  exists p r, wl_pending (wl a l) = p :: r.
Proof.
  intros n a l [_ _ k3] H. specialize (k3 l). rewrite H in k3. destruct k3 as [_ [B C]].
  destruct (wl_pending (wl a l)) as [|p r]; [destruct C; discriminate|].
  split; [apply (B p); left; reflexivity|]. split; [destruct C as [[? ?]|[? [? ?]]]; congruence|eauto].
Qed.

Lemma release_wl : forall t a l, wl (release t a) l = wl a l.
Proof. reflexivity. Qed.
Lemma release_entries : forall t a, Permutation (entries (release t a)) (entries a).
Proof.
  intros. unfold entries, release. cbn. rewrite <- app_assoc. apply Permutation_app_head. apply filter_split.
Qed.
Lemma release_ok : forall n t a, wrr_ok n a -> wrr_ok n (release t a) /\ forall l, inq (release t a) l = inq a l.
Proof.
  intros n t a [k1 k2 k3].
  assert (I : forall l, inq (release t a) l = inq a l).
  { intro l. apply entries_inq. pose proof (release_entries t a) as P.
    split; apply Permutation_in; [exact P|apply Permutation_sym; exact P]. }
  split; [|exact I]. split; [exact k1| |].
  - apply (Permutation_NoDup (Permutation_sym (release_entries t a))). exact k2.
  - intro l. rewrite I. apply k3.
Qed.

Lemma choose_spec : forall a tie, NoDup (entries a) -> entries a <> [] ->
  exists l a1, choose tie a = Some (l, a1) /\ w_vls a1 = w_vls a /\ w_link a1 = w_link a /\
    Permutation (entries a) (l :: entries a1).
Proof.
  intros a tie ND NE. unfold choose, entries in *. destruct (w_queue a) as [|x q] eqn:Q.
  - cbn [app] in *.
    destruct (top_some (cap_before a) tie (w_cap a) (cap_before_irr a) (cap_before_tr a) NE) as [l T].
    rewrite T. eexists. eexists. split; [reflexivity|]. repeat split. cbn.
    apply drop_perm; [exact ND|]. apply (top_spec _ _ _ _ T).
  - assert (QN : x :: q <> []) by discriminate.
    destruct (top_some (queue_before a) tie (x :: q) (queue_before_irr a) (queue_before_tr a) QN) as [l T].
    rewrite T. eexists. eexists. split; [reflexivity|]. split; [reflexivity|]. split; [reflexivity|].
    apply top_spec in T as [T _]. cbn [w_queue w_cap].
    change (l :: drop l (x :: q) ++ w_cap a) with ((l :: drop l (x :: q)) ++ w_cap a).
    apply Permutation_app_tail. apply drop_perm; [|exact T].
    clear -ND. induction (x :: q) as [|y z IH]; [constructor|]. inversion ND; subst. constructor; [|apply IH; assumption].
    intro H. apply H1. apply in_or_app. left. exact H.
Qed.

Lemma next_changes : forall t l p a, (l < length (w_vls a))%nat ->
  if s_bytes p <=? wl_credits (wl a l)
  then changes a (wrr_next t l p a) l (wl_pending (wl a l)) (wl_credits (wl a l) - s_bytes p) (wl_stalled (wl a l)) In_
  else changes a (wrr_next t l p a) l (wl_pending (wl a l)) (wl_credits (wl a l)) true Stay.
Proof.
  intros t l p a H. unfold wrr_next. set (v := wl a l). set (pd := add_wcredits v (- s_bytes p)).
  replace (wl_credits v - s_bytes p) with (wl_credits pd) by (cbn; lia).
  destruct (s_bytes p <=? wl_credits v); destruct (wl_sel v); one_lane H.
Qed.

(* One change after another, at the same lane *)
Lemma changes_after : forall a a1 a2 l q c st q2 c2 st2 m, changes a a1 l q c st Out ->
  (l < length (w_vls a))%nat ->
  changes a1 a2 l q2 c2 st2 m -> m <> Out -> 
  changes a a2 l q2 c2 st2 (match m with In_ => Stay | _ => Out end).
Proof.
  intros a a1 a2 l q c st q2 c2 st2 m [h1 h2 h3 h4 h5 h6 h7] H [g1 g2 g3 g4 g5 g6 g7] NM.
  split; auto.
  - congruence.
  - intros k K. destruct (h5 k K) as [<- [<- <-]]. apply g5. exact K.
  - intros _. specialize (h6 H). assert (H1 : (l < length (w_vls a1))%nat) by lia. specialize (g6 H1).
    rewrite h2 in g6. apply (Permutation_app_inv_l q).
    apply (Permutation_trans (l' := wl_pending (wl a l) ++ q ++ wrr_held a2)).
    { rewrite !app_assoc. apply Permutation_app_tail, Permutation_app_comm. }
    apply (Permutation_trans (l' := wl_pending (wl a l) ++ q2 ++ wrr_held a1)).
    { apply Permutation_app_head. exact g6. }
    apply (Permutation_trans (l' := q2 ++ wl_pending (wl a l) ++ wrr_held a1)).
    { rewrite !app_assoc. apply Permutation_app_tail, Permutation_app_comm. }
    apply (Permutation_trans (l' := q2 ++ q ++ wrr_held a)).
    { apply Permutation_app_head. exact h6. }
    rewrite !app_assoc. apply Permutation_app_tail, Permutation_app_comm.
  - destruct m; [|  |congruence].
    + apply (Permutation_trans h7). constructor. apply Permutation_sym. exact g7.
    + apply (Permutation_trans g7). apply Permutation_sym. exact h7.
Qed.

Lemma pop_changes : forall n t tie a, wrr_ok n a -> wrr_empty a = false ->
  exists l p r a', wrr_pop t tie a = Some (p, a') /\ inq a l = true /\ (l < n)%nat /\
    wl_pending (wl a l) = p :: r /\
    match r with
    | [] => changes a a' l [] (wl_credits (wl a l)) (wl_stalled (wl a l)) Out
    | x :: _ => if s_bytes x <=? wl_credits (wl a l)
           then changes a a' l r (wl_credits (wl a l) - s_bytes x) (wl_stalled (wl a l)) Stay
           else changes a a' l r (wl_credits (wl a l)) true Out
    end.
Proof.
  intros n t tie a O E.
  destruct (release_ok n t a O) as [O1 I1].
  assert (NE : entries (release t a) <> []).
  { intro X. pose proof (release_entries t a) as P. rewrite X in P. apply Permutation_nil in P.
    unfold entries in P. apply app_eq_nil in P as [P1 P2]. unfold wrr_empty in E. rewrite P1, P2 in E. discriminate. }
  destruct (choose_spec (release t a) tie (wo_nodup _ _ O1) NE) as [l [a1 [C1 [C2 [C3 C4]]]]].
  assert (IL : inq a l = true).
  { rewrite <- I1. apply inq_in. apply (Permutation_in _ (Permutation_sym C4)). left. reflexivity. }
  destruct (inq_lt n a l O IL) as [LN [_ [p [r PR]]]].
  assert (W : forall k, wl a1 k = wl a k) by (intro k; unfold wl; rewrite C2; reflexivity).
  unfold wrr_pop. rewrite C1, W, PR. exists l, p, r.
  set (v := set_pending (wl a l) r).
  set (v1 := match wl_sel v with BwMax => advance_max t (w_link a) p v | _ => v end).
  assert (V : wl_pending v1 = r /\ wl_credits v1 = wl_credits (wl a l) /\ wl_stalled v1 = wl_stalled (wl a l)).
  { unfold v1. destruct (wl_sel v); repeat split. }
  assert (LL : (l < length (w_vls a))%nat) by (rewrite (wo_len _ _ O); exact LN).
  assert (LL1 : (l < length (w_vls a1))%nat) by (rewrite C2; exact LL).
  assert (H0 : changes a a1 l (wl_pending (wl a l)) (wl_credits (wl a l)) (wl_stalled (wl a l)) Out).
  { split; try (rewrite W; reflexivity).
    - rewrite C2. reflexivity.
    - intros k K. rewrite W. auto.
    - intros _. unfold wrr_held. rewrite C2. reflexivity.
    - apply (Permutation_trans (Permutation_sym (release_entries t a))). exact C4. }
  pose proof (changes_after _ _ _ _ _ _ _ _ _ _ _ H0 LL (set_changes a1 l v1 LL1)) as H1.
  destruct V as [V1 [V2 V3]]. rewrite V1, V2, V3 in H1. specialize (H1 ltac:(discriminate)). cbn in H1.
  destruct r as [|x r'].
  - eexists. split; [reflexivity|]. split; [exact IL|]. split; [exact LN|]. split; [exact PR|]. exact H1.
  - eexists. split; [reflexivity|]. split; [exact IL|]. split; [exact LN|]. split; [exact PR|].
    assert (LL2 : (l < length (w_vls (set_wl a1 l v1)))%nat) by (cbn; rewrite set_nth_length; exact LL1).
    pose proof (next_changes t l x (set_wl a1 l v1) LL2) as N.
    rewrite wl_set in N by exact LL1. rewrite Nat.eqb_refl, V1, V2, V3 in N.
    destruct (s_bytes x <=? wl_credits (wl a l)).
    + apply (changes_after _ _ _ _ _ _ _ _ _ _ _ H1 LL N). discriminate.
    + apply (changes_after _ _ _ _ _ _ _ _ _ _ _ H1 LL N). discriminate.
Qed.

Lemma insert_changes : forall n t p a, wrr_ok n a -> (s_lane p < n)%nat ->
  let l := s_lane p in let v := wl a l in
  match wl_pending v with
  | [] => if s_bytes p <=? wl_credits v
          then changes a (wrr_insert t p a) l [p] (wl_credits v - s_bytes p) (wl_stalled v) In_
          else changes a (wrr_insert t p a) l [p] (wl_credits v) true Stay
  | q => changes a (wrr_insert t p a) l (q ++ [p]) (wl_credits v) (wl_stalled v) Stay
  end.
Proof.
  intros n t p a O LN l v. assert (LL : (l < length (w_vls a))%nat) by (rewrite (wo_len _ _ O); exact LN).
  unfold wrr_insert. fold l. fold v. destruct (wl_pending v) as [|x q] eqn:P.
  - destruct (s_bytes p <=? wl_credits v).
    + apply (pending_changes a _ l (wl_pending v) _ _ In_ ([] ++ [p])); [|exact LL]. apply enter_changes. exact LL.
    + apply (pending_changes a _ l (wl_pending v) _ _ Stay ([] ++ [p])); [|exact LL].
      apply (set_changes a l (set_stalled v true) LL).
  - apply (pending_changes a a l (wl_pending v) _ _ Stay ((x :: q) ++ [p])); [|exact LL].
    split; auto.
Qed.

Lemma credit_changes : forall n l c a, wrr_ok n a -> (l < n)%nat -> 0 <= c ->
  let v := wl a l in let c' := wl_credits v + c in
  (wl_stalled v = true /\ exists p r, wl_pending v = p :: r /\ s_bytes p <= c' /\
    changes a (wrr_credit l c a) l (wl_pending v) (c' - s_bytes p) false In_) \/
  (wl_stalled v = true -> exists p r, wl_pending v = p :: r /\ c' < s_bytes p) /\
    changes a (wrr_credit l c a) l (wl_pending v) c' (wl_stalled v) Stay.
Proof.
  intros n l c a O LN C v c'. assert (LL : (l < length (w_vls a))%nat) by (rewrite (wo_len _ _ O); exact LN).
  unfold wrr_credit. fold v. cbn [add_wcredits wl_stalled wl_pending wl_credits]. fold c'.
  set (v1 := add_wcredits v c).
  destruct (wl_stalled v) eqn:S.
  - pose proof (wo_lane _ _ O l) as [_ [_ K]]. fold v in K. destruct (wl_pending v) as [|p r] eqn:P; [destruct K; congruence|].
    destruct (Z.leb_spec (s_bytes p) c').
    + left. split; [reflexivity|]. exists p, r. split; [reflexivity|]. split; [assumption|].
      set (v2 := set_stalled (add_wcredits v1 (- s_bytes p)) false).
      assert (LL1 : (l < length (w_vls (set_wl a l v1)))%nat) by (cbn; rewrite set_nth_length; exact LL).
      assert (K2 : changes a (set_wl (set_wl a l v1) l v2) l (p :: r) (c' - s_bytes p) false Stay).
      { assert (W : forall k, wl (set_wl (set_wl a l v1) l v2) k = if (k =? l)%nat then v2 else wl a k).
        { intro k. rewrite wl_set by exact LL1. destruct (Nat.eqb_spec k l); [reflexivity|].
          rewrite wl_set by exact LL. destruct (Nat.eqb_spec k l); [congruence|reflexivity]. }
        split; try (rewrite W, Nat.eqb_refl; cbn; assumption || reflexivity || unfold c'; lia).
        - cbn. rewrite !set_nth_length. reflexivity.
        - intros k K'. rewrite W. destruct (Nat.eqb_spec k l); [congruence|auto].
        - intros _. fold v. rewrite P.
          pose proof (concat_set_perm _ wl_pending (w_vls a) l v1 no_wlane LL) as Q1.
          pose proof (concat_set_perm _ wl_pending (w_vls (set_wl a l v1)) l v2 no_wlane LL1) as Q2.
          change (nth l (w_vls (set_wl a l v1)) no_wlane) with (wl (set_wl a l v1) l) in Q2.
          rewrite wl_set in Q2 by exact LL. rewrite Nat.eqb_refl in Q2. cbn in Q2, Q1.
          change (nth l (w_vls a) no_wlane) with v in Q1. rewrite P in *.
          apply Permutation_app_head. eapply Permutation_trans; [eapply Permutation_app_inv_l; exact Q2|].
          eapply Permutation_app_inv_l. exact Q1.
        - reflexivity. }
      try destruct (wl_sel v1); (apply changes_queue || apply changes_cap); exact K2.
    + right. split; [intros _; eauto|]. rewrite <- P. replace true with (wl_stalled v1) by exact S.
      apply (set_changes a l v1 LL).
  - right. split; [discriminate|]. rewrite <- S. apply (set_changes a l v1 LL).
Qed.

Theorem wrr_lawful : forall n, lawful wrr_arb n (wrr_ok n) wrr_held wrr_purse wrr_waiting.
Proof.
  intro n. split; cbn [wrr_arb arb_state arb_insert arb_credit arb_pop arb_empty].
  - intros a t p O LN PB. pose proof (insert_changes n t p a O LN) as H. cbn zeta in H.
    pose proof (wo_lane _ _ O (s_lane p)) as LO.
    assert (LL : (s_lane p < length (w_vls a))%nat) by (rewrite (wo_len _ _ O); exact LN).
    set (l := s_lane p) in *. set (v := wl a l) in *. destruct LO as [LO1 [LO2 LO3]].
    assert (NP : forall q, (forall x, In x q -> In x (wl_pending v)) -> forall x, In x (q ++ [p]) -> s_lane x = l /\ (l < n)%nat /\ 0 <= s_bytes x).
    { intros q Q x X. apply in_app_or in X as [X|[<-|[]]]; auto. }
    destruct (wl_pending v) as [|x q] eqn:P.
    + destruct LO3 as [S0 B0].
      assert (PE : wrr_purse a l = wl_credits v /\ wrr_waiting a l = []).
      { unfold wrr_purse, wrr_waiting. fold v. rewrite B0, P. cbn. split; [lia|reflexivity]. }
      destruct (Z.leb_spec (s_bytes p) (wl_credits v)) as [LE|GT].
      * pose proof (ch_held _ _ _ _ _ _ _ H LL) as PH. fold v in PH. rewrite P in PH. cbn in PH.
        destruct (changes_ok n a _ l _ _ _ _ O LN H B0) as [O' [I' [K' [K1 K2]]]].
        { split; [lia|]. split; [apply (NP []); intros y []|]. left. auto. }
        split; [exact O'|]. split; [exact PH|].
        split; intro k; destruct (Nat.eq_dec k l) as [->|NE].
        -- rewrite K1. cbn. lia.
        -- apply K'. exact NE.
        -- left. rewrite K2. cbn. symmetry. apply PE.
        -- left. apply K'. exact NE.
      * pose proof (ch_held _ _ _ _ _ _ _ H LL) as PH. fold v in PH. rewrite P in PH. cbn in PH.
        assert (HL : lane_ok n l [p] (wl_credits v) true (inq a l)).
        { split; [lia|]. split; [apply (NP []); intros y []|]. right. rewrite B0. auto. }
        destruct (changes_ok n a _ l _ _ _ _ O LN H Logic.I HL) as [O' [I' [K' [K1 K2]]]].
        split; [exact O'|]. split; [exact PH|].
        split; intro k; destruct (Nat.eq_dec k l) as [->|NE].
        -- rewrite K1, B0. cbn. lia.
        -- apply K'. exact NE.
        -- right. split; [reflexivity|]. rewrite K2, B0. cbn. rewrite (proj2 PE). reflexivity.
        -- left. apply K'. exact NE.
    + pose proof (ch_held _ _ _ _ _ _ _ H LL) as PH. fold v in PH. rewrite P in PH.
      assert (HL : lane_ok n l ((x :: q) ++ [p]) (wl_credits v) (wl_stalled v) (inq a l)).
      { split; [exact LO1|]. split; [apply NP; auto|exact LO3]. }
      destruct (changes_ok n a _ l _ _ _ _ O LN H Logic.I HL) as [O' [I' [K' [K1 K2]]]].
      split; [exact O'|]. split.
      { apply (Permutation_app_inv_l (x :: q)). apply (Permutation_trans PH). rewrite <- app_assoc. reflexivity. }
      split; intro k; destruct (Nat.eq_dec k l) as [->|NE].
      * rewrite K1. unfold wrr_purse. fold v. rewrite P. cbn. reflexivity.
      * apply K'. exact NE.
      * right. split; [reflexivity|]. rewrite K2. unfold wrr_waiting. fold v. rewrite P. cbn. destruct (inq a l); reflexivity.
      * left. apply K'. exact NE.
  - intros a l0 c O LN C. pose proof (credit_changes n l0 c a O LN C) as H. cbn zeta in H.
    pose proof (wo_lane _ _ O l0) as LO. set (v := wl a l0) in *. destruct LO as [LO1 [LO2 LO3]].
    assert (LL : (l0 < length (w_vls a))%nat) by (rewrite (wo_len _ _ O); exact LN).
    destruct H as [[S [p [r [P [LE H]]]]]|[S H]].
    + rewrite P in *. destruct LO3 as [[? ?]|[_ [B0 SH]]]; [congruence|].
      destruct (changes_ok n a _ l0 _ _ _ _ O LN H B0) as [O' [I' [K' [K1 K2]]]].
      { split; [lia|]. split; [exact LO2|]. left. auto. }
      split; [exact O'|]. split.
      { pose proof (ch_held _ _ _ _ _ _ _ H LL) as PH. fold v in PH. rewrite P in PH. eapply Permutation_app_inv_l. exact PH. }
      split; intro k; destruct (Nat.eq_dec k l0) as [->|NE].
      * rewrite K1, Nat.eqb_refl. unfold wrr_purse. fold v. rewrite P, B0. cbn. lia.
      * destruct (Nat.eqb_spec l0 k); [congruence|]. destruct (K' k NE) as [_ [-> _]]. lia.
      * rewrite K2. unfold wrr_waiting. fold v. rewrite P, B0. exists [p]. reflexivity.
      * destruct (K' k NE) as [_ [_ ->]]. exists []. reflexivity.
    + assert (HL : lane_ok n l0 (wl_pending v) (wl_credits v + c) (wl_stalled v) (inq a l0)).
      { split; [lia|]. split; [exact LO2|]. destruct (wl_pending v) as [|p r] eqn:P; [exact LO3|].
        destruct LO3 as [?|[S1 [B1 _]]]; [left; assumption|right]. split; [exact S1|]. split; [exact B1|].
        destruct (S S1) as [p' [r' [P' SH]]]. injection P' as <- <-. exact SH. }
      destruct (changes_ok n a _ l0 _ _ _ _ O LN H Logic.I HL) as [O' [I' [K' [K1 K2]]]].
      split; [exact O'|]. split.
      { eapply Permutation_app_inv_l. exact (ch_held _ _ _ _ _ _ _ H LL). }
      split; intro k; destruct (Nat.eq_dec k l0) as [->|NE].
      * rewrite K1, Nat.eqb_refl. unfold wrr_purse. fold v. lia.
      * destruct (Nat.eqb_spec l0 k); [congruence|]. destruct (K' k NE) as [_ [-> _]]. lia.
      * rewrite K2. exists []. reflexivity.
      * destruct (K' k NE) as [_ [_ ->]]. exists []. reflexivity.
  - intros a t tie O E. destruct (pop_changes n t tie a O E) as [l [p [r [a' [H1 [H2 [H3 [H4 H5]]]]]]]].
    exists p, a'. split; [exact H1|]. pose proof (wo_lane _ _ O l) as LO. rewrite H4, H2 in LO.
    destruct LO as [LO1 [LO2 LO3]]. destruct (LO2 p (or_introl eq_refl)) as [PL [_ PB]].
    destruct LO3 as [[S0 _]|[_ [? _]]]; [|discriminate].
    assert (LL : (l < length (w_vls a))%nat) by (rewrite (wo_len _ _ O); exact H3).
    assert (PU : wrr_purse a l = wl_credits (wl a l) + s_bytes p) by (unfold wrr_purse; rewrite H2, H4; cbn; lia).
    assert (WA : wrr_waiting a l = r) by (unfold wrr_waiting; rewrite H2, H4; reflexivity).
    assert (LO2' : forall x, In x r -> s_lane x = l /\ (l < n)%nat /\ 0 <= s_bytes x)
      by (intros x X; apply LO2; right; exact X).
    assert (HELD : Permutation (wl_pending (wl a l) ++ wrr_held a') (r ++ wrr_held a) -> Permutation (wrr_held a) (p :: wrr_held a')).
    { intro Q. rewrite H4 in Q. apply (Permutation_app_inv_l r). apply Permutation_sym. apply (Permutation_trans (l' := p :: r ++ wrr_held a')).
      - apply Permutation_sym, Permutation_middle.
      - exact Q. }
    destruct r as [|x r].
    + destruct (changes_ok n a _ l _ _ _ _ O H3 H5 H2) as [O' [I' [K' [K1 K2]]]].
      { split; [lia|]. split; [intros y []|]. auto. }
      split; [exact O'|]. split; [rewrite PL; exact H3|]. split; [exact PB|].
      split; [apply HELD; exact (ch_held _ _ _ _ _ _ _ H5 LL)|].
      split; intro k; destruct (Nat.eq_dec k l) as [->|NE].
      * rewrite K1, PU, PL, Nat.eqb_refl. cbn. lia.
      * rewrite PL. destruct (Nat.eqb_spec l k); [congruence|]. destruct (K' k NE) as [_ [-> _]]. lia.
      * rewrite K2, WA. exists []. reflexivity.
      * destruct (K' k NE) as [_ [_ ->]]. exists []. reflexivity.
    + destruct (Z.leb_spec (s_bytes x) (wl_credits (wl a l))) as [LE|GT].
      * assert (HL : lane_ok n l (x :: r) (wl_credits (wl a l) - s_bytes x) (wl_stalled (wl a l)) (inq a l)).
        { split; [lia|]. split; [exact LO2'|]. left. auto. }
        destruct (changes_ok n a _ l _ _ _ _ O H3 H5 Logic.I HL) as [O' [I' [K' [K1 K2]]]].
        split; [exact O'|]. split; [rewrite PL; exact H3|]. split; [exact PB|].
        split; [apply HELD; exact (ch_held _ _ _ _ _ _ _ H5 LL)|].
        split; intro k; destruct (Nat.eq_dec k l) as [->|NE].
        -- rewrite K1, PU, PL, Nat.eqb_refl, H2. cbn. lia.
        -- rewrite PL. destruct (Nat.eqb_spec l k); [congruence|]. destruct (K' k NE) as [_ [-> _]]. lia.
        -- rewrite K2, WA, H2. exists [x]. reflexivity.
        -- destruct (K' k NE) as [_ [_ ->]]. exists []. reflexivity.
      * destruct (changes_ok n a _ l _ _ _ _ O H3 H5 H2) as [O' [I' [K' [K1 K2]]]].
        { split; [lia|]. split; [exact LO2'|]. right. auto. }
        split; [exact O'|]. split; [rewrite PL; exact H3|]. split; [exact PB|].
        split; [apply HELD; exact (ch_held _ _ _ _ _ _ _ H5 LL)|].
        split; intro k; destruct (Nat.eq_dec k l) as [->|NE].
        -- rewrite K1, PU, PL, Nat.eqb_refl. cbn. lia.
        -- rewrite PL. destruct (Nat.eqb_spec l k); [congruence|]. destruct (K' k NE) as [_ [-> _]]. lia.
        -- rewrite K2, WA. exists []. reflexivity.
        -- destruct (K' k NE) as [_ [_ ->]]. exists []. reflexivity.
  - intros a l O. pose proof (wo_lane _ _ O l) as [A1 [A2 A3]]. unfold wrr_purse.
    assert (0 <= set_aside (inq a l) (wl_pending (wl a l))); [|lia].
    unfold set_aside. destruct (inq a l); [|lia]. apply bsum_nonneg. intros p P. apply (A2 p).
    destruct (wl_pending (wl a l)); [destruct P|]. destruct P as [->|[]]. left. reflexivity.
  - intros a O E l.
    assert (NI : forall k, inq a k = false).
    { intro k. unfold inq, entries. unfold wrr_empty in E.
      destruct (w_queue a); [|discriminate]. destruct (w_cap a); [reflexivity|discriminate]. }
    unfold wrr_waiting, wrr_purse, wrr_held. rewrite NI. cbn [unpaid set_aside]. split.
    + rewrite (on_concat _ wl_pending no_wlane (w_vls a) 0 l); [|reflexivity|].
      * cbn. rewrite Nat.sub_0_r. reflexivity.
      * intros i p P. apply (wo_lane _ _ O i). exact P.
    + intros q r H. pose proof (wo_lane _ _ O l) as [_ [_ K]]. rewrite H, NI in K.
      destruct K as [[_ ?]|[_ [_ K]]]; [discriminate|]. lia.
Qed.

Definition lane_credits (lanes : list (sel * Z * Z * Z)) : list Z := map snd lanes.

Lemma wrr_start : forall link lanes, (forall c, In c (lane_credits lanes) -> 0 <= c) ->
  wrr_ok (length lanes) (wrr_init link lanes) /\ wrr_held (wrr_init link lanes) = [] /\
  (forall l, wrr_purse (wrr_init link lanes) l = nth l (lane_credits lanes) 0) /\
  (forall l, wrr_waiting (wrr_init link lanes) l = []).
Proof.
  intros link lanes H.
  set (mk := fun x : sel * Z * Z * Z => let '(s, d, pr, c) := x in
       {| wl_sel := s; wl_delay := d; wl_prio := pr; wl_stalled := false; wl_next := 0;
          wl_credits := c; wl_pending := [] |}).
  assert (F : forall l, wl (wrr_init link lanes) l = mk (nth l lanes (NoQos, 0, 0, 0))).
  { intro l. unfold wl, wrr_init. cbn. change no_wlane with (mk (NoQos, 0, 0, 0)). apply map_nth. }
  assert (G : forall x, wl_pending (mk x) = [] /\ wl_stalled (mk x) = false /\ wl_credits (mk x) = snd x)
    by (intros [[[? ?] ?] ?]; auto).
  assert (C : forall l, wl_credits (wl (wrr_init link lanes) l) = nth l (lane_credits lanes) 0).
  { intro l. rewrite F. destruct (G (nth l lanes (NoQos, 0, 0, 0))) as [_ [_ ->]].
    symmetry. apply (map_nth snd lanes (NoQos, 0, 0, 0) l). }
  assert (P : forall l, wl_pending (wl (wrr_init link lanes) l) = []) by (intro l; rewrite F; apply G).
  split; [split|split; [|split]].
  - cbn. apply map_length.
  - constructor.
  - intro l. rewrite P, C. split.
    + destruct (nth_in_or_default l (lane_credits lanes) 0) as [I|E]; [apply H; exact I|rewrite E; lia].
    + split; [intros p []|]. split; [rewrite F; apply G|reflexivity].
  - unfold wrr_held. cbn. rewrite map_map.
    assert (Q : forall xs, concat (map (fun x => wl_pending (mk x)) xs) = []).
    { induction xs as [|x xs IH]; [reflexivity|]. cbn. rewrite (proj1 (G x)). exact IH. }
    apply Q.
  - intro l. unfold wrr_purse. rewrite C, P. unfold inq. cbn. lia.
  - intro l. unfold wrr_waiting. rewrite P. reflexivity.
Qed.
